(** * KalmanSpec: linear-Gaussian chains.  It does not mention the model of the code. *)
From Coq Require Import Reals.
From mathcomp Require Import all_ssreflect all_algebra.
From Verif Require Import RInst GaussSpec.

Set Implicit Arguments.
Unset Strict Implicit.
Unset Printing Implicit Defensive.
Import GRing.Theory Num.Theory Order.TTheory.
Local Open Scope ring_scope.

Definition spd (d : nat) (A : 'M[R]_d) : Prop := symmetric A /\ positive A.

(** Standard normal log-density. *)
Definition std_logpdf (d : nat) (e : 'cV[R]_d) : R := gauss_logpdf 1%:M e 0.

Section Chain.
Variables (dx dy T : nat).
(** x_{t+1} = F_t x_t + b_t + N(0, Q_t), y_t = H_t x_t + c_t + N(0, R_t). *)
Variables (m0 : 'cV[R]_dx) (P0 : 'M[R]_dx) (F Q : nat -> 'M[R]_dx) (b : nat -> 'cV[R]_dx).
Variables (H : nat -> 'M[R]_(dy, dx)) (Rc : nat -> 'M[R]_dy) (c y : nat -> 'cV[R]_dy).

Definition chain_logpdf (x : nat -> 'cV[R]_dx) : R :=
  gauss_logpdf P0 (x 0%N) m0 + \sum_(t < T) gauss_logpdf (Q t) (x t.+1) (F t *m x t + b t).

(** Observations at times [first], ..., T. *)
Definition obs_logpdf (first : nat) (x : nat -> 'cV[R]_dx) : R :=
  \sum_(first <= t < T.+1) gauss_logpdf (Rc t) (y t) (H t *m x t + c t).
End Chain.

(** Mean and covariance of x_t. *)
Section Marginals.
Variables (d : nat) (m0 : 'cV[R]_d) (P0 : 'M[R]_d) (F Q : nat -> 'M[R]_d) (b : nat -> 'cV[R]_d).
Fixpoint mean_at (t : nat) : 'cV[R]_d := if t is t'.+1 then F t' *m mean_at t' + b t' else m0.
Fixpoint cov_at (t : nat) : 'M[R]_d := if t is t'.+1 then Q t' + F t' *m cov_at t' *m (F t')^T else P0.
End Marginals.

(** The chain x_t = K_t x_{t+1} + mu_t + N(0, S_t), started from x_T ~ N(mT, PT). *)
Definition reverse_logpdf (d T : nat) (mT : 'cV[R]_d) (PT : 'M[R]_d) (K S : nat -> 'M[R]_d) (mu : nat -> 'cV[R]_d)
    (x : nat -> 'cV[R]_d) : R :=
  gauss_logpdf PT (x T) mT + \sum_(t < T) gauss_logpdf (S t) (x t) (K t *m x t.+1 + mu t).
