(** * GaussSpec: vocabulary for statements about Gaussian densities.
    It does not mention the model of the code. *)
From Coq Require Import Reals.
From mathcomp Require Import all_ssreflect all_algebra.
From Verif Require Import RInst.

Set Implicit Arguments.
Unset Strict Implicit.
Unset Printing Implicit Defensive.
Import GRing.Theory Num.Theory Order.TTheory.
Local Open Scope ring_scope.

(** Value of the quadratic form of [A] at [v]. *)
Definition quad (d : nat) (A : 'M[R]_d) (v : 'cV[R]_d) : R := (v^T *m A *m v) 0 0.

(** Log-density of N(m, S) at [x], without and with its normalising constant. *)
Definition gauss_kernel (d : nat) (S : 'M[R]_d) (x m : 'cV[R]_d) : R :=
  - (quad (invmx S) (x - m) / 2%:R).
Definition gauss_logpdf (d : nat) (S : 'M[R]_d) (x m : 'cV[R]_d) : R :=
  gauss_kernel S x m - ln (\det S) / 2%:R - d%:R * ln (2%:R * PI) / 2%:R.

Definition symmetric (d : nat) (A : 'M[R]_d) : Prop := A^T = A.
Definition positive (d : nat) (A : 'M[R]_d) : Prop := forall v, v != 0 -> 0 < quad A v.

(** What is used of the Lebesgue integral over R^d: it is homogeneous and
    invariant under translations. *)
Record translation_invariant (d : nat) (I : ('cV[R]_d -> R) -> R) : Prop := {
  int_scale : forall c f, I (fun u => c * f u) = c * I f;
  int_shift : forall a f, I (fun u => f (u - a)) = I f;
  int_ext : forall f g, (forall u, f u = g u) -> I f = I g }.

(** [h n] is, up to a factor that does not depend on [n], the density obtained by
    integrating the variable [u] out of [exp (joint n u)]. *)
Definition marginal_of (d : nat) (J : Type) (joint : J -> 'cV[R]_d -> R) (h : J -> R) : Prop :=
  forall I, translation_invariant I -> exists c, forall n, I (fun u => exp (joint n u)) = c * exp (h n).

(** The reason for it: [joint n] is [h n] plus one function [q] of [u] shifted by an
    amount that may depend on [n]. *)
Definition shifted_by (d : nat) (J : Type) (joint : J -> 'cV[R]_d -> R) (h : J -> R) : Prop :=
  exists (q : 'cV[R]_d -> R) (a : J -> 'cV[R]_d), forall n u, joint n u = h n + q (u - a n).

(** Log-density (up to a constant) at [v] of a stacked centred Gaussian on the vectors
    indexed by the [i] with [sel i], with precision blocks [W i j]. *)
Definition block_kernel (d : nat) (J : finType) (sel : pred J) (W : J -> J -> 'M[R]_d) (v : J -> 'cV[R]_d) : R :=
  - (\sum_(i | sel i) \sum_(j | sel j) ((v i)^T *m W i j *m v j) 0 0) / 2%:R.
(** [W] is the inverse of the block covariance [S] on the selected indices. *)
Definition block_precision (d : nat) (J : finType) (sel : pred J) (S W : J -> J -> 'M[R]_d) : Prop :=
  forall i j, sel i -> sel j -> \sum_(k | sel k) S i k *m W k j = if i == j then 1%:M else 0.
