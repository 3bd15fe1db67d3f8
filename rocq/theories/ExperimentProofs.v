(** * ExperimentProofs: the densities of the experiments. *)
From Coq Require Import Reals Lra.
From mathcomp Require Import all_ssreflect all_algebra.
From Verif Require Import RInst Gauss GaussSpec GaussProofs MarginalProofs Proposal ProposalProofs ResamplingProofs Kalman KalmanSpec CholProofs
  KalmanProofs KalmanPaths Twisted TwistedProofs Experiments ExperimentSpec.

Set Implicit Arguments.
Unset Strict Implicit.
Unset Printing Implicit Defensive.
Import GRing.Theory Num.Theory Order.TTheory.
Local Open Scope ring_scope.

(** ** Products of one-dimensional densities *)
Section Norm.
Variable d : nat.
Local Notation vec := 'cV[R]_d.

Lemma PI2_gt0 : 0 < 2%:R * PI :> R.
Proof. by apply: mulr_gt0; [rewrite ltr0n | apply/RltE; exact: PI_RGT_0]. Qed.

Lemma norm_logpdfE (x m s : R) : 0 < s ->
  norm_logpdf x m s true = - ((x - m) ^+ 2 / s ^+ 2 / 2%:R) - ln (s ^+ 2) / 2%:R - ln (2%:R * PI) / 2%:R.
Proof.
move=> s0; have s0' := s0; rewrite RltE in s0'.
have -> : ln (s ^+ 2) = 2%:R * ln s.
  by rewrite expr2 [LHS]ln_mult //; toR; lra.
have -> : norm_logpdf x m s true = - (1 / 2%:R) * ((x - m) / s) ^+ 2 - (ln s + ln (2%:R * PI) / 2%:R).
  rewrite /norm_logpdf; congr (_ - _).
  have q0 : (0 < sqrt (2%:R * PI))%coqR by apply: sqrt_lt_R0; move: PI2_gt0; rewrite RltE.
  rewrite [LHS]ln_mult //; congr (_ + _).
  have e : ln (2%:R * PI) = ln (sqrt (2%:R * PI)) + ln (sqrt (2%:R * PI)).
    rewrite -[RHS]ln_mult // [X in ln X = _](_ : _ = (sqrt (2%:R * PI) * sqrt (2%:R * PI))%coqR) //.
    by rewrite sqrt_sqrt //; move: (ltW PI2_gt0); rewrite RleE.
  by rewrite e; move: (ln (sqrt _)) => l; toR; lra.
move: (ln s) (ln (2%:R * PI)) => a b; rewrite !expr2; move: s0'; clear; toR => s0; field.
by apply: Rgt_not_eq.
Qed.

Lemma sqn_scaled (v : 'rV[R]_d) (z : vec) : (forall i, v 0 i != 0) ->
  quad (invmx (diag_mx v)) z = \sum_i z i 0 ^+ 2 / v 0 i.
Proof.
move=> nz; have vu : diag_mx v \in unitmx.
  by rewrite unitmxE det_diag unitfE; apply/prodf_neq0 => i _; exact: nz.
have -> : invmx (diag_mx v) = diag_mx (\row_i (v 0 i)^-1).
  by rewrite -[RHS](mulKmx vu) diag_unit // mulmx1.
rewrite /quad -mulmxA mul_diag_mx mxE; apply: eq_bigr => j _; rewrite !mxE.
by rewrite expr2 [_^-1 * _]mulrC !mulrA.
Qed.

(** Independent normal coordinates. *)
Lemma norm_sum (x m : vec) (s : 'I_d -> R) : (forall i, 0 < s i) ->
  \sum_i norm_logpdf (x i 0) (m i 0) (s i) true = gauss_logpdf (diag_mx (\row_i s i ^+ 2)) x m.
Proof.
move=> s0; have s2 i : 0 < s i ^+ 2 by rewrite exprn_gt0.
rewrite /gauss_logpdf /gauss_kernel sqn_scaled; last by move=> i; rewrite mxE gt_eqF.
rewrite det_diag ln_prod; last by move=> i; rewrite mxE.
under eq_bigr do rewrite norm_logpdfE //.
rewrite !big_split /= !sumrN -!mulr_suml sumr_const card_ord; congr (- (_ / _) - _ / _ - _).
  by apply: eq_bigr => i _; rewrite !mxE.
  by apply: eq_bigr => i _; rewrite mxE.
by rewrite -[_ *+ d]mulr_natl.
Qed.

Lemma norm_sum1 (x m : vec) (s : R) : 0 < s ->
  \sum_i norm_logpdf (x i 0) (m i 0) s true = gauss_logpdf (s ^+ 2)%:M x m.
Proof.
move=> s0; rewrite (norm_sum _ _ (s := fun=> s)) // -diag_const_mx; congr (gauss_logpdf (diag_mx _) _ _).
by apply/rowP => i; rewrite !mxE.
Qed.

Lemma norm_sum0 (x : vec) (s : R) : 0 < s ->
  \sum_i norm_logpdf (x i 0) 0 s true = gauss_logpdf (s ^+ 2)%:M x 0.
Proof. by move=> s0; rewrite -norm_sum1 //; apply: eq_bigr => i _; rewrite mxE. Qed.

Lemma gauss_swap (S : 'M[R]_d) x m : gauss_logpdf S x m = gauss_logpdf S m x.
Proof. by rewrite /gauss_logpdf /gauss_kernel -opprB quadN. Qed.
End Norm.

(** ** Lists and times *)
Section Lists.
Variables (A B : Type).
Lemma big_zip_mkseq (f : nat -> A) (g : nat -> B) (h : A * B -> R) n :
  \sum_(p <- zip (mkseq f n) (mkseq g n)) h p = \sum_(t < n) h (f t, g t).
Proof. by rewrite /mkseq zip_iota big_map -[in LHS](subn0 n) big_mkord. Qed.

Lemma big_steps (f : nat -> A) (h : A * A -> R) n :
  \sum_(p <- zip (behead (mkseq f n.+1)) (take (size (mkseq f n.+1)).-1 (mkseq f n.+1))) h p = \sum_(t < n) h (f t.+1, f t).
Proof. by rewrite behead_mkseq size_mkseq take_mkseq zip_iota big_map -[in LHS](subn0 n) big_mkord. Qed.
End Lists.

(** ** The linear Gaussian model *)
Section Lgssm.
Variables (d T : nat) (sigma : R) (y : nat -> 'cV[R]_d).
Hypothesis s0 : 0 < sigma.
Local Notation joint := (lgssm_joint T sigma y).

Lemma lg_potentialE (x z : 'cV[R]_d) : lg_log_potential x z = gauss_logpdf 1%:M z x.
Proof. by rewrite /lg_log_potential norm_sum1 ?ltr01 // expr1n. Qed.

Lemma lg_potential_swap (x z : 'cV[R]_d) : \sum_i norm_logpdf (x i 0) (z i 0) 1 true = gauss_logpdf 1%:M z x.
Proof. by rewrite norm_sum1 ?ltr01 // expr1n gauss_swap. Qed.

Lemma lg_jointE x : joint x = gauss_logpdf (sigma ^+ 2)%:M (x 0%N) 0
  + \sum_(t < T) gauss_logpdf (sigma ^+ 2)%:M (x t.+1) (x t) + \sum_(t < T.+1) gauss_logpdf 1%:M (y t) (x t).
Proof.
by rewrite /lgssm_joint /chain_logpdf; congr (_ + _ + _); apply: eq_bigr => t _; rewrite mul1mx addr0.
Qed.

(** The sum of the potentials of a cSMC kernel. *)
Lemma lg_steps (G0 : 'cV[R]_d -> R) (Gt : 'cV[R]_d -> 'cV[R]_d -> 'cV[R]_d -> R) (c0 c : R) :
  (forall x, G0 x = c0 + (gauss_logpdf 1%:M (y 0%N) x + gauss_logpdf (sigma ^+ 2)%:M x 0)) ->
  (forall xp x z, Gt xp x z = c + (gauss_logpdf 1%:M z x + gauss_logpdf (sigma ^+ 2)%:M x xp)) ->
  same_density (fun x : nat -> 'cV[R]_d => G0 (x 0%N) + \sum_(t < T) Gt (x t) (x t.+1) (y t.+1)) joint.
Proof.
move=> h0 h; exists (c0 + T%:R * c) => x; rewrite lg_jointE h0.
under eq_bigr do rewrite h.
rewrite big_split big_split /= sumr_const card_ord -[c *+ T]mulr_natl.
have -> : \sum_(t < T.+1) gauss_logpdf 1%:M (y t) (x t) = gauss_logpdf 1%:M (y 0%N) (x 0%N) + \sum_(t < T) gauss_logpdf 1%:M (y t.+1) (x t.+1).
  by rewrite big_ord_recl.
move: (\sum_(i < T) _) (\sum_(i < T) _) (gauss_logpdf _ _ _) (gauss_logpdf _ _ _) (T%:R * c); clear.
by move=> *; toR; lra.
Qed.

Lemma lg_csmc_target : same_density (fun x => lg_csmc_Gamma_0 sigma (y 0%N) (x 0%N)
  + \sum_(t < T) lg_csmc_Gamma_t sigma (x t) (x t.+1) (y t.+1)) joint.
Proof.
by apply: (@lg_steps _ _ 0 0) => *; rewrite add0r /lg_csmc_Gamma_0 /lg_csmc_Gamma_t /lg_M0_logpdf /lg_Mt_logpdf lg_potentialE ?norm_sum0 ?norm_sum1.
Qed.
Lemma lg_mala_csmc_target : same_density (fun x => lg_mala_Gamma_0 sigma (y 0%N) (x 0%N)
  + \sum_(t < T) lg_mala_Gamma_t sigma (x t) (x t.+1) (y t.+1)) joint.
Proof.
by apply: (@lg_steps _ _ 0 0) => *; rewrite add0r /lg_mala_Gamma_0 /lg_mala_Gamma_t lg_potentialE ?norm_sum0 ?norm_sum1.
Qed.
Lemma lg_rw_csmc_target : same_density (fun x => lg_rw_Gamma_0 sigma (y 0%N) (x 0%N)
  + \sum_(t < T) lg_rw_Gamma_t sigma (x t) (x t.+1) (y t.+1)) joint.
Proof.
by apply: (@lg_steps _ _ 0 0) => *; rewrite add0r /lg_rw_Gamma_0 /lg_rw_Gamma_t lg_potentialE ?norm_sum0 ?norm_sum1.
Qed.

Lemma inv_cholE n (C : 'M[R]_n) : inv_chol C = invmx (tril (cholesky C)).
Proof. by rewrite /inv_chol /solve_triangular mulmx1. Qed.

Lemma spd_scalar n (a : R) : 0 < a -> spd (a%:M : 'M[R]_n).
Proof. by move=> a0; split; [rewrite /symmetric tr_scalar_mx | exact: positive_scalar]. Qed.

Lemma s2_spd n : spd ((sigma ^+ 2)%:M : 'M[R]_n).
Proof. by apply: spd_scalar; rewrite exprn_gt0. Qed.

Lemma lg_QE : lg_Q d sigma = (sigma ^+ 2)%:M. Proof. by rewrite /lg_Q scalemx1. Qed.
Lemma lg_P0E : lg_P0 d sigma = (sigma ^+ 2)%:M. Proof. by rewrite /lg_P0 scalemx1. Qed.

Lemma lg_tp_csmc_target : same_density (fun x => prior_Gamma_0 (lg_m0 d) (lg_P0 d sigma) (lg_r0 (y 0%N)) (x 0%N)
  + \sum_(t < T) prior_Gamma_t (@lg_mut d) (lg_Q d sigma) (@lg_rt d) (x t) (x t.+1) (y t.+1)) joint.
Proof.
set c := ln (\det ((sigma ^+ 2)%:M : 'M[R]_d)) / 2%:R + d%:R * ln (2%:R * PI) / 2%:R.
apply: (@lg_steps _ _ c c) => *; rewrite /prior_Gamma_0 /prior_Gamma_t ?lg_P0E ?lg_QE inv_cholE (mvn_inv_cholesky _ _ (s2_spd _)) kernelE.
  by rewrite /lg_r0 lg_potentialE -/c /lg_m0; move: (gauss_logpdf _ _ _) (gauss_logpdf _ _ _) => *; toR; lra.
by rewrite /lg_rt lg_potentialE -/c /lg_mut; move: (gauss_logpdf _ _ _) (gauss_logpdf _ _ _) => *; toR; lra.
Qed.

Lemma lg_log_pdfE x : lg_log_pdf sigma (mkseq x T.+1) (mkseq y T.+1) = joint x.
Proof.
rewrite lg_jointE /lg_log_pdf big_steps big_zip_mkseq; congr (_ + _ + _).
- by rewrite /= norm_sum0.
- by apply: eq_bigr => t _ /=; rewrite norm_sum1.
by apply: eq_bigr => t _ /=; rewrite lg_potential_swap.
Qed.

Lemma lg_log_likelihoodE x : lg_log_pdf_ys (mkseq y T.+1) (mkseq x T.+1) = \sum_(t < T.+1) gauss_logpdf 1%:M (y t) (x t).
Proof. by rewrite /lg_log_pdf_ys /lg_log_likelihood big_zip_mkseq; apply: eq_bigr => t _ /=; rewrite lg_potentialE. Qed.

Lemma lg_prior_target x :
  chain_logpdf T (lg_m0 d) (lg_P0 d sigma) (fun=> lg_F d) (fun=> lg_Q d sigma) (fun=> lg_b d) x
  + lg_log_pdf_ys (mkseq y T.+1) (mkseq x T.+1) = joint x.
Proof. by rewrite lg_log_likelihoodE lg_P0E lg_QE. Qed.
End Lgssm.
