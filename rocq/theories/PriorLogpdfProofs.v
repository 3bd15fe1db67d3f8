(** * PriorLogpdfProofs: proofs for C85. *)
From Coq Require Import Reals Lra.
From mathcomp Require Import all_ssreflect all_algebra.
From Verif Require Import RInst Prog Gauss GaussSpec GaussProofs Kalman KalmanSpec CholProofs KalmanProofs KalmanPaths PriorLogpdf.

Set Implicit Arguments.
Unset Strict Implicit.
Unset Printing Implicit Defensive.
Import GRing.Theory Num.Theory Order.TTheory.
Local Open Scope ring_scope.

(** The terms left out by [constant=False]. *)
Definition left_out d (S : 'M[R]_d) : R := ln (\det S) / 2%:R + d%:R * ln (2%:R * PI) / 2%:R.

Section Density.
Variables (d T : nat) (m0 : 'cV[R]_d) (P0 L0 C0 : 'M[R]_d) (F Q L C : nat -> 'M[R]_d) (b : nat -> 'cV[R]_d).
Hypotheses (h0 : L0 *m L0^T = P0) (i0 : C0 *m L0 = 1%:M).
Hypotheses (h : forall t, (t < T)%N -> L t *m (L t)^T = Q t) (i : forall t, (t < T)%N -> C t *m L t = 1%:M).

Lemma mvn_left_out (S M K : 'M[R]_d) x m : M *m M^T = S -> K *m M = 1%:M ->
  mvn_logpdf x m 0 (Some K) false = gauss_logpdf S x m + left_out S.
Proof.
move=> hS hK; have [Ku Mu] := mulmx1_unit hK.
have KE : invmx M = K by rewrite -[LHS]mul1mx -hK mulmxK.
rewrite /mvn_logpdf /logpdf_with_inv /gauss_logpdf /gauss_kernel /left_out -{1}hS quad_factor // KE subr0.
by move: (sqn _) (ln _) (d%:R * _) => q l c; toR; lra.
Qed.

Lemma predE x : pred_xs (mkseq x T.+1) (mkseq F T) (mkseq b T) = mkseq (fun t => F t *m x t + b t) T.
Proof.
rewrite /pred_xs size_mkseq /=.
have -> : take T (mkseq x T.+1) = mkseq x T.
  by rewrite /mkseq -map_take; congr map; rewrite take_iota; congr iota; exact/minn_idPl/leqnSn.
rewrite /mkseq !zip_map -map_comp; apply: eq_map => t /=; congr (_ + _).
by apply/colP => k; rewrite !mxE; apply: eq_bigr => j _; rewrite mulrC.
Qed.

Lemma prior_density x :
  prior_logpdf (mkseq x T.+1) m0 C0 (mkseq F T) (mkseq C T) (mkseq b T)
  = chain_logpdf T m0 P0 F Q b x + (left_out P0 + \sum_(t < T) left_out (Q t)).
Proof.
rewrite /prior_logpdf predE /chain_logpdf [head _ _]/= (mvn_left_out _ _ h0 i0).
have -> : behead (mkseq x T.+1) = mkseq (fun t => x t.+1) T by rewrite /mkseq /= (iotaDl 1 0) -map_comp.
rewrite /mkseq !zip_map big_map addrACA -big_split /=; congr (_ + _).
rewrite -(big_mkord xpredT (fun t => gauss_logpdf (Q t) (x t.+1) (F t *m x t + b t) + left_out (Q t))) /index_iota subn0.
rewrite big_seq [RHS]big_seq; apply: eq_bigr => t; rewrite mem_iota add0n => /andP [_ lt].
exact: mvn_left_out (h lt) (i lt).
Qed.
End Density.

Section Sampled.
Variables (d T : nat) (m0 : 'cV[R]_d) (P0 : 'M[R]_d) (F Q : nat -> 'M[R]_d) (b : nat -> 'cV[R]_d).
Hypotheses (hP : spd P0) (hQ : forall t, spd (Q t)).
Variables (C0 : 'M[R]_d) (C : nat -> 'M[R]_d).
Hypotheses (i0 : C0 *m cholesky P0 = 1%:M) (i : forall t, C t *m cholesky (Q t) = 1%:M).

Lemma prior_sampled (eps : nat -> 'cV[R]_d) :
  prior_logpdf (prior_sampling (mkseq eps T.+1) m0 P0 [seq Dyn (F t) (Q t) (b t) | t <- iota 0 T])
    m0 C0 (mkseq F T) (mkseq C T) (mkseq b T) = - (\sum_(t < T.+1) sqn (eps t)) / 2%:R.
Proof.
set s := prior_sampling _ _ _ _; have [sz s0 ss] := prior_samplingE T F Q b m0 P0 eps; rewrite -/s in sz s0 ss; clearbody s.
have sE : s = mkseq (nth 0 s) T.+1 by rewrite -sz mkseq_nth.
have [_ _ f0] := cholesky_ok hP.
have f t : cholesky (Q t) *m (cholesky (Q t))^T = Q t by have [_ _] := cholesky_ok (hQ t).
rewrite sE (@prior_density _ _ _ P0 (cholesky P0) _ _ Q (fun t => cholesky (Q t))) //.
rewrite /chain_logpdf addrACA -big_split s0 /=.
have one (S : 'M[R]_d) m e : spd S -> gauss_logpdf S (m + cholesky S *m e) m + left_out S = - sqn e / 2%:R.
  move=> hS; rewrite draw_density // /std_logpdf /gauss_logpdf /gauss_kernel /left_out subr0.
  have -> : quad (invmx 1%:M) e = sqn e by rewrite quadE invmx1 mul1mx sqnE.
  have -> : ln (\det (1%:M : 'M[R]_d)) = 0 by rewrite det1; exact: ln_1.
  by move: (sqn e) (ln _) (d%:R * _) => q l c; toR; lra.
rewrite (one _ _ _ hP) [in RHS]big_ord_recl opprD mulrDl; congr (_ + _).
rewrite -sumrN mulr_suml; apply: eq_bigr => t _.
by rewrite ss // one.
Qed.
End Sampled.

Lemma sum_left_out d T (P0 : 'M[R]_d) (Q : nat -> 'M[R]_d) :
  left_out P0 + \sum_(t < T) left_out (Q t)
  = (ln (\det P0) + \sum_(t < T) ln (\det (Q t)) + T.+1%:R * (d%:R * ln (2%:R * PI))) / 2%:R.
Proof.
rewrite /left_out big_split /= -mulr_suml sumr_const card_ord -[_ *+ T]mulr_natl.
have -> : T.+1%:R = 1 + T%:R :> R by rewrite -addn1 natrD addrC.
have key (u v w n : R) : u / 2%:R + w / 2%:R + (v / 2%:R + n * (w / 2%:R)) = (u + v + (1 + n) * w) / 2%:R by toR; lra.
exact: key.
Qed.

Lemma density_statement (d T : nat) (m0 : 'cV[R]_d) (P0 L0 C0 : 'M[R]_d) (F Q L C : nat -> 'M[R]_d) (b x : nat -> 'cV[R]_d) :
  L0 *m L0^T = P0 -> C0 *m L0 = 1%:M ->
  (forall t, (t < T)%N -> L t *m (L t)^T = Q t) -> (forall t, (t < T)%N -> C t *m L t = 1%:M) ->
  prior_logpdf (mkseq x T.+1) m0 C0 (mkseq F T) (mkseq C T) (mkseq b T)
  = chain_logpdf T m0 P0 F Q b x
    + (ln (\det P0) + \sum_(t < T) ln (\det (Q t)) + T.+1%:R * (d%:R * ln (2%:R * PI))) / 2%:R.
Proof. by move=> h0 i0 h i; rewrite -sum_left_out; exact: (@prior_density _ _ m0 P0 L0 C0 F Q L C b h0 i0 h i x). Qed.

Lemma sampled_statement (d T : nat) (m0 : 'cV[R]_d) (P0 : 'M[R]_d) (F Q : nat -> 'M[R]_d) (b : nat -> 'cV[R]_d)
    (C0 : 'M[R]_d) (C : nat -> 'M[R]_d) (eps : nat -> 'cV[R]_d) :
  spd P0 -> (forall t, spd (Q t)) -> C0 *m cholesky P0 = 1%:M -> (forall t, C t *m cholesky (Q t) = 1%:M) ->
  prior_logpdf (prior_sampling (mkseq eps T.+1) m0 P0 [seq Dyn (F t) (Q t) (b t) | t <- iota 0 T])
    m0 C0 (mkseq F T) (mkseq C T) (mkseq b T) = - (\sum_(t < T.+1) \sum_i eps t i 0 ^+ 2) / 2%:R.
Proof. by move=> hP hQ i0 i; exact: (@prior_sampled d T m0 P0 F Q b hP hQ C0 C i0 i eps). Qed.

Lemma chol_inverse (d : nat) (S : 'M[R]_d) : spd S -> exists C, C *m cholesky S = 1%:M.
Proof.
move=> /cholesky_ok [tr dp _]; exists (invmx (cholesky S)); apply: mulVmx.
by apply: trig_unit => // i; rewrite gt_eqF.
Qed.
