(** * ExperimentSpec: the two state-space models of the experiments, and vocabulary for statements
    about them.  It does not mention the model of the code. *)
From Coq Require Import Reals.
From mathcomp Require Import all_ssreflect all_algebra.
From Verif Require Import RInst GaussSpec KalmanSpec.

Set Implicit Arguments.
Unset Strict Implicit.
Unset Printing Implicit Defensive.
Import GRing.Theory Num.Theory Order.TTheory.
Local Open Scope ring_scope.

(** Equal up to an additive constant. *)
Definition same_density (X : Type) (f g : X -> R) : Prop := exists c, forall x, f x = c + g x.

(** x_0 ~ N(0, s^2 I), x_{t+1} ~ N(x_t, s^2 I), y_t ~ N(x_t, I), for t = 0 .. T. *)
Definition lgssm_joint (d T : nat) (s : R) (y x : nat -> 'cV[R]_d) : R :=
  chain_logpdf T 0 (s ^+ 2)%:M (fun=> 1%:M) (fun=> (s ^+ 2)%:M) (fun=> 0) x
  + \sum_(t < T.+1) gauss_logpdf 1%:M (y t) (x t).

(** Volatility: component i of y_t is N(0, exp(x_t,i)). *)
Definition vol_logpdf (d : nat) (x y : 'cV[R]_d) : R := gauss_logpdf (diag_mx (\row_i exp (x i 0))) y 0.
Definition vol_joint (d T : nat) (m0 : 'cV[R]_d) (P0 F Q : 'M[R]_d) (b : 'cV[R]_d) (y x : nat -> 'cV[R]_d) : R :=
  chain_logpdf T m0 P0 (fun=> F) (fun=> Q) (fun=> b) x + \sum_(t < T.+1) vol_logpdf (x t) (y t).

(** Equal variances [a] and equal correlations [r]. *)
Definition equicorrelated (d : nat) (a r : R) : 'M[R]_d := \matrix_(i, j) (if i == j then a else a * r).

Definition diagonal (d : nat) (A : 'M[R]_d) : Prop := forall i j, i != j -> A i j = 0.
