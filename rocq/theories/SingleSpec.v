(** * SingleSpec: vocabulary for kernels on a single state.
    It does not mention the model of the code. *)
From Coq Require Import Reals.
From mathcomp Require Import all_ssreflect all_algebra.
From Verif Require Import RInst Prog.

Set Implicit Arguments.
Unset Strict Implicit.
Unset Printing Implicit Defensive.
Import GRing.Theory Num.Theory Order.TTheory.
Local Open Scope ring_scope.

(** The Markov kernel [kern] leaves the (unnormalised) target invariant. *)
Definition keeps_target (X : finType) (target : X -> R) (kern : X -> prog X) : Prop :=
  forall f : X -> R, \sum_x target x * E (kern x) f = \sum_x target x * f x.

(** The same up to [eps] times the total mass, on functions bounded by [c]. *)
Definition nearly_keeps_target (X : finType) (target : X -> R) (kern : X -> prog X) (c eps : R) : Prop :=
  forall f : X -> R, (forall x, `|f x| <= c) ->
    `| \sum_x target x * E (kern x) f - \sum_x target x * f x | <= \sum_x target x * eps.

(** Detailed balance: current and next state are exchangeable under the target. *)
Definition reversible_kernel (X : finType) (target : X -> R) (kern : X -> prog X) : Prop :=
  forall h : X -> X -> R,
    \sum_x target x * E (kern x) (fun y => h x y) = \sum_x target x * E (kern x) (fun y => h y x).

(** A move that does not depend on the numbering of the particles. *)
Definition relabels (n : nat) (mv : Prog.key -> ('I_n -> R) -> 'I_n -> prog ('I_n * R)) : Prop :=
  forall key w (s : 'I_n -> 'I_n) k (f : 'I_n -> R), bijective s ->
    E (mv key (fun i => w (s i)) k) (fun r => f (s r.1)) = E (mv key w (s k)) (fun r => f r.1).

(** Acceptance probability of a proposal with Metropolis-Hastings ratio [r]; the second
    case is the exception made by [force_move] for ratios of at most about 1e-12. *)
Definition guarded_mh (r : R) : R :=
  if 1 / IZR 999999999999 < r then Num.min 1 r else r / 2%:R.

(** Successive calls of kernels that return a new state and an indicator. *)
Fixpoint iterate (S B : Type) (Ks : seq (S -> prog (S * B))) (s : S) : prog S :=
  if Ks is K :: Ks' then do r <- K s; iterate Ks' r.1 else Ret s.
