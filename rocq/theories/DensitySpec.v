(** * DensitySpec: vocabulary for invariance statements given all particles.

    States are of any type (for instance real vectors), so nothing is summed or
    integrated over states.  All particles are given, and sums run over the indices
    of the reference.  The statements compare the joint density of the reference and
    of the other particles before and after the kernel. *)
From Coq Require Import Reals.
From mathcomp Require Import all_ssreflect all_algebra.
From Verif Require Import RInst Prog GaussSpec.

Set Implicit Arguments.
Unset Strict Implicit.
Unset Printing Implicit Defensive.
Import GRing.Theory Num.Theory Order.TTheory.
Local Open Scope ring_scope.

(** A call of a sampler with key [k], observed to return [a], where its density is [d].
    The expectation of a program with observed calls carries the product of their densities. *)
Definition observed (A : Type) (k : key) (d : R) (a : A) : prog A :=
  Draw k unit_finType (fun=> d) (fun=> Ret a).

(** The states that a sequence of indices picks from generations of particles. *)
Fixpoint pick (X : Type) (n : nat) (ys : seq {ffun 'I_n -> X}) (bs : seq 'I_n) : seq X :=
  match ys, bs with
  | y :: ys', b :: bs' => y b :: pick ys' bs'
  | _, _ => [::]
  end.

(** Sum over all sequences of [m.+1] indices, passed as head and tail. *)
Definition idx_sum (n m : nat) (F : 'I_n -> seq 'I_n -> R) : R :=
  \sum_(b0 : 'I_n) \sum_(bs : m.-tuple 'I_n) F b0 bs.

(** ** Auxiliary variables
    At each time, u has the reference state plus a drift for mean, and the particles other
    than the reference have mean u; [nl] is the log-density of the noise. *)
Section Auxiliary.
Variables (X : zmodType) (n : nat) (S Q : Type).
Local Notation pop := {ffun 'I_n -> X}.

(** Log-density of u and of the other particles of a generation [y] given the reference [y b]. *)
Definition given_ref (nl : X -> R) (m u : X) (y : pop) (b : 'I_n) : R :=
  nl (u - m) + \sum_(i | i != b) nl (y i - u).

Variables (nl : S -> X -> R) (drift0 : X -> S -> X) (drift : X -> X -> S -> Q -> X).

Fixpoint aux_log (xm : X) (ys : seq pop) (bs : seq 'I_n) (us : seq X) (ss : seq S) (qs : seq Q) : R :=
  match ys, bs, us, ss, qs with
  | y :: ys', b :: bs', u :: us', s :: ss', q :: qs' =>
      given_ref (nl s) (y b + drift xm (y b) s q) u y b + aux_log (y b) ys' bs' us' ss' qs'
  | _, _, _, _, _ => 0
  end.

Definition aux_density (u0 : X) (us : seq X) (s0 : S) (ss : seq S) (qs : seq Q) (y0 : pop) (ys : seq pop)
  (b0 : 'I_n) (bs : seq 'I_n) : R :=
  exp (given_ref (nl s0) (y0 b0 + drift0 (y0 b0) s0) u0 y0 b0 + aux_log (y0 b0) ys bs us ss qs).

(** The same with every u integrated out, [I] being the integral over one of them. *)
Variable I : (X -> R) -> R.

Fixpoint marg_prod (xm : X) (ys : seq pop) (bs : seq 'I_n) (ss : seq S) (qs : seq Q) : R :=
  match ys, bs, ss, qs with
  | y :: ys', b :: bs', s :: ss', q :: qs' =>
      I (fun u => exp (given_ref (nl s) (y b + drift xm (y b) s q) u y b)) * marg_prod (y b) ys' bs' ss' qs'
  | _, _, _, _ => 1
  end.

Definition marg_density (s0 : S) (ss : seq S) (qs : seq Q) (y0 : pop) (ys : seq pop)
  (b0 : 'I_n) (bs : seq 'I_n) : R :=
  I (fun u => exp (given_ref (nl s0) (y0 b0 + drift0 (y0 b0) s0) u y0 b0)) * marg_prod (y0 b0) ys bs ss qs.

End Auxiliary.

(** ** Proposals that use the prior
    Given u ~ N(x, v I), the law of x ~ N(m, Q) is N(m + K (u - m), Q - K Q). *)
Section Posterior.
Variable d : nat.
Definition post_gain (Q : 'M[R]_d) (v : R) : 'M[R]_d := Q *m invmx (Q + v%:M).
Definition post_log (Q : 'M[R]_d) (v : R) (m u x : 'cV[R]_d) : R :=
  gauss_kernel (Q - post_gain Q v *m Q) x (m + post_gain Q v *m (u - m)).

(** Density of the particles of [y] other than [b], given u. *)
Definition others_given (n : nat) (Q : 'M[R]_d) (v : R) (ms : 'I_n -> 'cV[R]_d) (u : 'cV[R]_d)
  (y : {ffun 'I_n -> 'cV[R]_d}) (b : 'I_n) : R :=
  \prod_(i | i != b) exp (post_log Q v (ms i) u (y i)).

(** The same given the reference [y b] only: u ~ N(y b + drift, v I) is integrated out by [I]. *)
Definition others_marg (I : ('cV[R]_d -> R) -> R) (n : nat) (Q : 'M[R]_d) (v : R) (ms : 'I_n -> 'cV[R]_d)
  (drift : 'cV[R]_d) (y : {ffun 'I_n -> 'cV[R]_d}) (b : 'I_n) : R :=
  I (fun u => exp (gauss_kernel v%:M u (y b + drift)) * others_given Q v ms u y b).
End Posterior.

(** Given the particles [y0], [ys], with [joint] the density of the reference having its
    indices and of everything given: the index and state of the output, drawn by [kern],
    have the same joint density with what is given. *)
Definition keeps_density (X : Type) (n : nat) (y0 : {ffun 'I_n -> X}) (ys : seq {ffun 'I_n -> X})
  (joint : 'I_n -> seq 'I_n -> R) (kern : 'I_n -> seq 'I_n -> prog (seq X * seq 'I_n)) : Prop :=
  forall f : seq X -> seq 'I_n -> R,
  idx_sum (size ys) (fun b0 bs => joint b0 bs * E (kern b0 bs) (fun r => f r.1 r.2))
  = idx_sum (size ys) (fun b0 bs => joint b0 bs * f (y0 b0 :: pick ys bs) (b0 :: bs)).

(** The same up to [eps] for test functions bounded by [c]. *)
Definition nearly_keeps_density (X : Type) (n : nat) (y0 : {ffun 'I_n -> X}) (ys : seq {ffun 'I_n -> X})
  (joint : 'I_n -> seq 'I_n -> R) (kern : 'I_n -> seq 'I_n -> prog (seq X * seq 'I_n)) (c eps : R) : Prop :=
  forall f : seq X -> seq 'I_n -> R, (forall xs bs, `|f xs bs| <= c) ->
  `|idx_sum (size ys) (fun b0 bs => joint b0 bs * E (kern b0 bs) (fun r => f r.1 r.2))
    - idx_sum (size ys) (fun b0 bs => joint b0 bs * f (y0 b0 :: pick ys bs) (b0 :: bs))|
  <= idx_sum (size ys) (fun b0 bs => joint b0 bs * eps).

(** ** Kernels on a single state
    The points [y] are given, the current state is one of them, and [given b] is the density of the
    other points, and of whatever else is given, when it is [y b].  [kern b f] is the expectation of [f] at the next
    state times that density. *)
Section Points.
Variables (X : Type) (n : nat) (y : 'I_n -> X) (target : X -> R) (given : 'I_n -> R) (kern : 'I_n -> (X -> R) -> R).

Definition keeps_points : Prop := forall f : X -> R,
  \sum_b target (y b) * kern b f = \sum_b target (y b) * given b * f (y b).

Definition nearly_keeps_points (c eps : R) : Prop := forall f : X -> R, (forall x, `|f x| <= c) ->
  `|\sum_b target (y b) * kern b f - \sum_b target (y b) * given b * f (y b)| <= \sum_b target (y b) * given b * eps.

Definition reversible_points : Prop := forall h : X -> X -> R,
  \sum_b target (y b) * kern b (fun z => h (y b) z) = \sum_b target (y b) * kern b (fun z => h z (y b)).
End Points.
