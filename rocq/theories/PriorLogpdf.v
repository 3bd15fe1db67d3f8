(** * PriorLogpdf: model of [prior_logpdf] of /repo/gradient_csmc/imh.py (no other function calls it).

    Simplified: one trajectory ([jnp.vectorize] applies it to each); real arithmetic. *)
From Coq Require Import Reals.
From mathcomp Require Import all_ssreflect all_algebra.
From Verif Require Import RInst Prog Gauss.

Set Implicit Arguments.
Unset Strict Implicit.
Unset Printing Implicit Defensive.
Import GRing.Theory Num.Theory Order.TTheory.
Local Open Scope ring_scope.

Section PriorLogpdf.
Variable d : nat.
Local Notation vec := 'cV[R]_d.
Local Notation mat := 'M[R]_d.
(** imh.py:113: [jnp.einsum('...j,...ij->...i', xs[:-1], Fs) + bs]. *)
Definition pred_xs (xs : seq vec) (Fs : seq mat) (bs : seq vec) : seq vec :=
  [seq (\col_i \sum_j p.1.1 j 0 * p.1.2 i j) + p.2 | p : vec * mat * vec <- zip (zip (take (size xs).-1 xs) Fs) bs].
(** imh.py:110-115. *)
Definition prior_logpdf (xs : seq vec) (m0 : vec) (inv_chol_P0 : mat) (Fs inv_chol_Qs : seq mat) (bs : seq vec) : R :=
  let out := mvn_logpdf (head 0 xs) m0 0 (Some inv_chol_P0) false in
  out + \sum_(p <- zip (zip (behead xs) (pred_xs xs Fs bs)) inv_chol_Qs) mvn_logpdf p.1.1 p.1.2 0 (Some p.2) false.
End PriorLogpdf.
