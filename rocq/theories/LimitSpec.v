(** * LimitSpec: vocabulary for limits of sequences of vectors and of paths (C65). *)
From Coq Require Import Reals.
From mathcomp Require Import all_ssreflect all_algebra.
From Verif Require Import RInst Prog Resampling Spec Csmc Gauss AuxCsmc Kalman TpReal.

Set Implicit Arguments.
Unset Strict Implicit.
Unset Printing Implicit Defensive.
Import GRing.Theory Num.Theory Order.TTheory.
Local Open Scope ring_scope.

(** A sequence of reals tends to a real, to infinity. *)
Definition lim (u : nat -> R) (l : R) : Prop := Un_cv u l.
Definition to_infinity (u : nat -> R) : Prop := cv_infty u.

(** Vectors and matrices, entry by entry. *)
Definition vlim (p q : nat) (x : nat -> 'M[R]_(p, q)) (l : 'M[R]_(p, q)) : Prop := forall i j, lim (fun n => x n i j) (l i j).

(** Paths of one length, state by state. *)
Definition path_lim (d : nat) (x : nat -> seq 'cV[R]_d) (l : seq 'cV[R]_d) : Prop :=
  (forall n, size (x n) = size l) /\ forall t, vlim (fun n => nth 0 (x n) t) (nth 0 l t).

(** Continuity of a function of one vector, of two vectors, of a path. *)
Definition cont (d : nat) (f : 'cV[R]_d -> R) : Prop := forall x l, vlim x l -> lim (fun n => f (x n)) (f l).
Definition cont2 (d : nat) (f : 'cV[R]_d -> 'cV[R]_d -> R) : Prop :=
  forall x l y k, vlim x l -> vlim y k -> lim (fun n => f (x n) (y n)) (f l k).
Definition vcont (d e : nat) (f : 'cV[R]_d -> 'cV[R]_e) : Prop := forall x l, vlim x l -> vlim (fun n => f (x n)) (f l).
Definition vcont2 (d e : nat) (f : 'cV[R]_d -> 'cV[R]_d -> 'cV[R]_e) : Prop :=
  forall x l y k, vlim x l -> vlim y k -> vlim (fun n => f (x n) (y n)) (f l k).
Definition path_cont (d : nat) (I : Type) (f : seq 'cV[R]_d * I -> R) : Prop :=
  forall x l b, path_lim x l -> lim (fun n => f (x n, b)) (f (l, b)).

(** The law of the ancestors depends continuously on the weights, where they are positive, and not on the key;
    the same for the law of the final index. *)
Definition positive_limit (n : nat) (w : nat -> 'I_n -> R) (l : 'I_n -> R) : Prop :=
  [/\ forall k, prob_vec (w k), prob_vec l, forall i, 0 < l i & forall i, lim (fun k => w k i) (l i)].
Definition cont_resampler (n : nat) (rs : resampler n) : Prop :=
  forall k k' w l i j f, positive_limit w l -> lim (fun m => E (rs k (w m) i j true) f) (E (rs k' l i j true) f).
Definition cont_mover (n : nat) (mv : mover n) : Prop :=
  forall k k' w l i f, positive_limit w l -> lim (fun m => E (mv k (w m) i) (fun r => f r.1)) (E (mv k' l i) (fun r => f r.1)).

(** Scaling the covariance of the prior of one time step. *)
Definition inflate (d : nat) (Q : Type) (k : R) (s : step d Q) : step d Q :=
  Step (st_delta s) (st_ell s) (k *: st_Q s) (st_U s) (k *: st_G s) (st_q s).
(** Step sizes of one time step. *)
Definition sizes (d : nat) (Q : Type) (s : step d Q) : R * R := (st_delta s, st_ell s).

(** Standard normal draws [e], turned by the eigenvectors of the prior covariance and scaled by the standard
    deviation of the auxiliary variables; and those of all time steps when the draw of step [c] uses the key
    [split (split k c) 0]. *)
Definition turned (d n' : nat) (Q : Type) (s : step d Q) (e : {ffun 'I_n'.+1 -> 'cV[R]_d}) : {ffun 'I_n'.+1 -> 'cV[R]_d} :=
  [ffun i => sqrt (st_ell s / 2%:R) *: (st_U s *m e i)].
Fixpoint turned_from (d n' : nat) (Q : Type) (eps : key -> {ffun 'I_n'.+1 -> 'cV[R]_d}) (k : key) (c : nat) (ss : seq (step d Q))
  : seq {ffun 'I_n'.+1 -> 'cV[R]_d} :=
  if ss is s :: ss' then turned s (eps (split (split k c) 0)) :: turned_from eps k c.+1 ss' else [::].

(** Scaling the variance [ell] of the auxiliary variables of one time step. *)
Definition widen (d : nat) (Q : Type) (k : R) (s : step d Q) : step d Q :=
  Step (st_delta s) (k * st_ell s) (st_Q s) (st_U s) (st_G s) (st_q s).
(** The matrix that takes the root [U diag(sqrt G)] of the prior covariance to its Cholesky factor. *)
Definition turn (d : nat) (Q : Type) (s : step d Q) : 'M[R]_d :=
  invmx (cholesky (st_Q s)) *m (st_U s *m diag_mx (\row_i sqrt (st_G s 0 i))).

(** Auxiliary variables of a reference path for the normal draws [e0], [es] (tp_csmc.py:108-117,
    atp_csmc_f.py:103-112). *)
Section Aux.
Variables (d : nat) (Q : Type) (g0 : 'cV[R]_d -> 'cV[R]_d) (gt : 'cV[R]_d -> 'cV[R]_d -> Q -> 'cV[R]_d).
Definition std_of (s : step d Q) : R := sqrt (st_ell s / 2%:R).
Definition aux_0 (s0 : step d Q) (x0 e0 : 'cV[R]_d) : 'cV[R]_d := x0 + sizes_step (sizes s0) (g0 x0) + std_of s0 *: e0.
Definition aux_t (ss : seq (step d Q)) (x0 : 'cV[R]_d) (xs es : seq 'cV[R]_d) : seq 'cV[R]_d :=
  grad_aux (@sizes_step d) gt x0 xs [seq sizes s | s <- ss] [seq st_q s | s <- ss] [seq std_of p.1 *: p.2 | p <- zip ss es].
End Aux.
