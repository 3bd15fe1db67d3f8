(** * ProperSpec: functions that draw from probability mass functions when given normalised weights. *)
From Coq Require Import Reals.
From mathcomp Require Import all_ssreflect all_algebra.
From Verif Require Import RInst Prog Resampling Spec Csmc.

Set Implicit Arguments.
Unset Strict Implicit.
Unset Printing Implicit Defensive.
Import GRing.Theory Num.Theory Order.TTheory.
Local Open Scope ring_scope.

Definition draws_resampler n (rs : resampler n) : Prop :=
  forall key w i j conditional, prob_vec w -> proper (rs key w i j conditional).
Definition draws_mover n (mv : mover n) : Prop := forall key w k, prob_vec w -> proper (mv key w k).
