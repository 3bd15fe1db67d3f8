(** * Proposal: model of the preconditioned proposal of /repo/gradient_csmc/atp_csmc_f.py
    (make_proposal, M0_rvs, M0_logpdf, Mt_rvs, Mt_logpdf), also used by tp_csmc.py and atp_csmc_s.py. *)
From Coq Require Import Reals.
From mathcomp Require Import all_ssreflect all_algebra.
From Verif Require Import RInst Gauss Resampling.

Set Implicit Arguments.
Unset Strict Implicit.
Unset Printing Implicit Defensive.
Import GRing.Theory Num.Theory Order.TTheory.
Local Open Scope ring_scope.

(** atp_csmc_f.py:15. *)
Definition stable_zero : R := 1 / IZR 1000000000000000.

Section Proposal.
Variable d : nat.
Local Notation vec := 'cV[R]_d.
Local Notation mat := 'M[R]_d.
Local Notation arr := 'rV[R]_d.

(** [A * v[None, :]], [v[:, None] * A], [A / v[None, :]], [A / v[:, None]]. *)
Definition cols_times (A : mat) (v : arr) : mat := \matrix_(i, j) (A i j * v 0 j).
Definition rows_times (v : arr) (A : mat) : mat := \matrix_(i, j) (v 0 i * A i j).
Definition cols_div (A : mat) (v : arr) : mat := \matrix_(i, j) (A i j / v 0 j).
Definition rows_div (A : mat) (v : arr) : mat := \matrix_(i, j) (A i j / v 0 i).

(** The parameters of one time step. *)
Record params := Params { K_1 : mat; K_2 : mat; p_chol : mat; p_chol_inv : mat; p_K_inv : mat }.

(** atp_csmc_f.py:144-157, [_get_proposal_params].  [U], [Gamma], [U_t] come from
    [jnp.linalg.svd(Q, hermitian=True)], which is not modelled: theorems
    quantify over every factorisation it may return.  [jnp.clip(x, z, inf)] is
    the maximum with [z]. *)
Definition get_proposal_params (ell : R) (U : mat) (Gamma : arr) (U_t : mat) : params :=
  let inv_pred_cov : arr := \row_i (1 / (Gamma 0 i + ell / 2%:R)) in
  let Gamma_delta : arr := \row_i (Gamma 0 i * inv_pred_cov 0 i) in
  let K2 := rows_times Gamma_delta U_t in
  let K1 := U in
  let temp : arr := \row_i Num.max (Gamma 0 i - Gamma 0 i ^+ 2 * inv_pred_cov 0 i) stable_zero in
  let temp : arr := \row_i sqrt (temp 0 i) in
  let chol := cols_times U temp in
  let chol_inv := cols_div U temp in
  let K_inv := U *m rows_div U_t Gamma_delta in
  Params K1 K2 chol chol_inv K_inv.

(** Mean of the proposal, atp_csmc_f.py:168-169, 178-179, 186-187, 194-195. *)
Definition prop_mean (p : params) (u mean_prior : vec) : vec :=
  mean_prior + K_1 p *m (K_2 p *m (u - mean_prior)).

(** atp_csmc_f.py:165-173, 183-189: one row of the array, given its noise. *)
Definition prop_rvs (p : params) (u mean_prior eps : vec) : vec :=
  prop_mean p u mean_prior + p_chol p *m eps.

(** atp_csmc_f.py:176-180, 192-196. *)
Definition prop_logpdf (p : params) (u mean_prior x : vec) : R :=
  mvn_logpdf x (prop_mean p u mean_prior) 0 (Some (p_chol_inv p)) false.
End Proposal.
