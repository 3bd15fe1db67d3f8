(** * NanSpec: vocabulary for targets with zeros (C86, C87). *)
From Coq Require Import Reals.
From mathcomp Require Import all_ssreflect all_algebra.
From Verif Require Import RInst Prog Resampling Spec NanCsmc.

Set Implicit Arguments.
Unset Strict Implicit.
Unset Printing Implicit Defensive.
Import GRing.Theory Num.Theory Order.TTheory.
Local Open Scope ring_scope.

(** [m] is the logarithm of the number [y >= 0]; that of 0 is [-inf]. *)
Definition log_of (m : xnum) (y : R) : Prop :=
  match m with Fin r => exp r = y | NInf => y = 0 | PInf | NaN => False end.

(** Product of potentials along a trajectory. *)
Fixpoint pot_path (X Q : Type) (Gt : X -> X -> Q -> R) (x : X) (xs : seq X) (qs : seq Q) : R :=
  match xs, qs with
  | x' :: xs', q :: qs' => Gt x x' q * pot_path Gt x' xs' qs'
  | _, _ => 1
  end.
Definition pot_target (X Q : Type) (G0 : X -> R) (Gt : X -> X -> Q -> R) (qs : seq Q)
  (x0 : X) (xs : seq X) : R := G0 x0 * pot_path Gt x0 xs qs.

(** The callbacks sample independently from [mu0] and [mut], evaluate the logarithms
    of these and of the potentials [G0], [Gt], and the proposals reach every
    state where the potential is not 0. *)
Definition markov_zeros (X : finType) (n' : nat) (P Q : Type) (md : xmodel X n' P Q)
  (mu0 : X -> R) (mut : X -> P -> X -> R) (G0 : X -> R) (Gt : X -> X -> Q -> R) : Prop :=
  [/\ [/\ forall key, samples_indep (xM0_rvs md key) (fun _ => mu0),
          forall x i, log_of (xM0_logpdf md x i) (mu0 (x i)),
          forall x, log_of (xGamma0 md x) (G0 x)
        & forall x, G0 x != 0 -> mu0 x != 0],
      forall key xm p, samples_indep (xMt_rvs md key xm p) (fun i => mut (xm i) p),
      forall xm xt p i, log_of (xMt_logpdf md xm xt p i) (mut (xm i) p (xt i)),
      forall x y q, log_of (xGammat md x y q) (Gt x y q)
    & forall x y p q, Gt x y q != 0 -> mut x p y != 0].

(** Trajectory and indices, when there is a result. *)
Definition odrop (A B : Type) (m : prog (option (A * B))) : prog (option A) :=
  do o <- m; Ret (omap fst o).

(** [utils/mcmc_utils.py:82]: the kernel applied with one key after the other to what
    it returned before. *)
Fixpoint xruns (X : Type) (n' : nat) (P Q : Type) (rs : resampler n'.+1) (mv : mover n'.+1)
  (md : xmodel X n' P Q) (ps : seq P) (qs : seq Q) (backward : bool) (keys : seq key)
  (s : seq X * seq 'I_n'.+1) : prog (option (seq X * seq 'I_n'.+1)) :=
  match keys, s with
  | [::], _ => Ret (Some s)
  | k :: ks, (x0 :: xs, b0 :: bs) =>
      odo s' <- odrop (xkernel rs mv md k x0 xs b0 bs ps qs backward true);
      xruns rs mv md ps qs backward ks s'
  | _, _ => Ret None
  end.

(** Started from the target times the uniform law on indices, a kernel that may be
    without result has one almost surely, distributed in the same way. *)
Definition leaves_invariant_result (X : finType) (n m : nat) (target : X -> seq X -> R)
  (kern : X -> seq X -> 'I_n -> seq 'I_n -> prog (option (seq X * seq 'I_n))) : Prop :=
  forall f : option (seq X * seq 'I_n) -> R,
    traj_sum m (fun x0 xs b0 bs => target x0 xs * E (kern x0 xs b0 bs) f)
    = traj_sum m (fun x0 xs b0 bs => target x0 xs * f (Some (x0 :: xs, b0 :: bs))).

(** The final move draws from probability vectors. *)
Definition proper_mover (n : nat) (mv : mover n) : Prop :=
  forall key w k, prob_vec w -> proper (mv key w k).
