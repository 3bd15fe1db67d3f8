(** * StepSizesSpec: vocabulary for C83 and C84, independent of the code that computes step sizes. *)
From Coq Require Import Reals.
From mathcomp Require Import all_ssreflect all_algebra.
From Verif Require Import RInst Experiments.

Set Implicit Arguments.
Unset Strict Implicit.
Unset Printing Implicit Defensive.
Import GRing.Theory Num.Theory Order.TTheory.
Local Open Scope ring_scope.

(** Whether a library kernel proposes and selects the states of all times together, in dimension D T, or time by time
    among particles of dimension D. *)
Definition whole_path (i : impl) : bool := match i with Ktp | Kimh | Kmala _ _ => true | _ => false end.
(** Whether its proposals depend on the gradient of a log-density or potential. *)
Definition uses_gradient (i : impl) : bool :=
  match i with
  | Kcsmc | Kimh | Krw => false
  | Ktp | Kal_f | Kal_s | Kl_f => true
  | Ktp_csmc sg | Katp_f sg | Katp_s sg | Kt_atp sg | Kmala _ sg => ~~ sg
  end.
(** The greatest entry of an array. *)
Definition greatest n (arr : 'I_n.+1 -> R) (m : R) : Prop := (forall i, arr i <= m) /\ exists j, arr j = m.
