(** * OneStepReal: the formulas of the code on real vectors meet what is asked in OneStep.v. *)
From Coq Require Import Reals Lra.
From mathcomp Require Import all_ssreflect all_algebra.
From Verif Require Import RInst Gauss GaussSpec GaussProofs MarginalFinal MarginalProofs Kalman KalmanSpec KalmanProofs Proposal Single SingleFinal.
From Verif Require Import DensitySpec DensityFinal TpReal DensityTp ErgodicSpec.

Set Implicit Arguments.
Unset Strict Implicit.
Unset Printing Implicit Defensive.
Import GRing.Theory Num.Theory Order.TTheory.
Local Open Scope ring_scope.

Section Sizes.
Variables (d : nat) (delta : R).
Hypothesis d0 : 0 < delta.
Local Notation vec := 'cV[R]_d.

Lemma sizes_ldN (s : R * R) (z : vec) : sizes_ld s (- z) = sizes_ld s z.
Proof. by rewrite /sizes_ld; congr (- _ / _); rewrite /sqn; apply: eq_bigr => i _; rewrite !mxE mulrNN. Qed.

Lemma mala_sizes_ld (z : vec) : mala_ld delta z = sizes_ld (delta, delta) z.
Proof. by have := mala_ldE d0 z 0; rewrite subr0 => ->; rewrite (noise_ld (delta, delta)). Qed.

Lemma tp1_sizes_corr (u x g : vec) :
  tp1_corr delta u x g = sizes_ld (delta, delta) (u - x - sizes_step (delta, delta) g) - sizes_ld (delta, delta) (u - x).
Proof.
rewrite -!(mala_sizes_ld) -addrA -opprD !mala_ldE // /sizes_step /= -tp1_corrE //.
by rewrite [_ + tp1_corr _ _ _ _]addrC addrK.
Qed.
End Sizes.

Section Bayes.
Variables (d : nat) (Q : 'M[R]_d) (v : R).
Hypothesis sQ : spd Q.
Hypothesis v0 : 0 < v.
Local Notation vec := 'cV[R]_d.

(** The prior times the law of the auxiliary variable is the law of the proposal, up to a factor that does
    not depend on the state. *)
Lemma prior_times_noise (m u : vec) : exists c, forall x,
  gauss_kernel Q x m + gauss_kernel v%:M u x = post_log Q v m u x + c.
Proof.
have sV : spd (v%:M : 'M[R]_d) by split; [rewrite /symmetric tr_scalar_mx|exact: positive_scalar].
have eI : innov Q v%:M 1%:M = Q + v%:M by rewrite /innov mul1mx trmx1 mulmx1 addrC.
have eg : gain Q v%:M 1%:M = post_gain Q v by rewrite /gain eI trmx1 mulmx1.
have uI : innov Q v%:M 1%:M \in unitmx by case: (innov_spd 1%:M sQ sV) => _ /positive_unit.
have ep : post Q v%:M 1%:M = Q - post_gain Q v *m Q.
  rewrite /post gainT // /gain trmx1 !mulmx1 -[Q *m invmx _ *m _]mulmxA mulVmx // mulmx1.
  by rewrite /post_gain -eI !mulmxA.
have := update_exact 1%:M sQ sV m _ u 0; rewrite eg ep !mul1mx !addr0 => H.
pose K : R := gauss_logpdf (innov Q v%:M 1%:M) u m + (ln (\det Q) + ln (\det (v%:M : 'M[R]_d)) - ln (\det (Q - post_gain Q v *m Q))
  + d%:R * ln (2%:R * PI)) / 2%:R.
exists K => x; have := H x; rewrite mul1mx addr0 [in X in X = _]/gauss_logpdf [gauss_logpdf (_ - _) _ _]/gauss_logpdf -/(post_log Q v m u x) /K.
move: (gauss_kernel Q x m) (gauss_kernel v%:M u x) (post_log Q v m u x) (gauss_logpdf _ _ _) (ln _) (ln _) (ln _) (ln _) d%:R => a b c e l1 l2 l3 l4 k.
move: (k * l3) => p; clear; toR; by move=> h; lra.
Qed.
End Bayes.

(** Particle-aGRAD: [atp_one_step] asks that prior and noise give the proposal. *)
Section Agrad.
Variables (d : nat) (Q : Type) (s : step d Q).
Local Notation vec := 'cV[R]_d.
Lemma step_prior_noise (mu0 : vec) : step_ok s -> st_Q s = diag_mx (st_G s) -> forall u, exists c, forall x,
  step_prior0 mu0 s x + step_ld s (u - x) = step_pld s (x - step_mean0 mu0 s u) + c.
Proof.
move=> ok dg u; have [c1 H1] := step_pld_post ok dg.
have l0 : 0 < st_ell s / 2%:R by case: ok => _ _ h _ _; rewrite divr_gt0 // ltr0n.
have [c2 H2] := prior_times_noise (step_spd ok) l0 mu0 u.
exists (c2 - c1) => x; rewrite /step_prior0 step_priorE // /step_mean0 H1 /step_ld -(noise_ld (st_delta s, st_ell s)) /= -noise_shift H2.
by move: (post_log _ _ _ _ _) => p; toR; lra.
Qed.
End Agrad.

(** Particle-MALA: [l_one_step] asks for a correction that does not see the order of the particles. *)
Section Mala.
Variables (d n' : nat).
Local Notation vec := 'cV[R]_d.

Lemma mean0_moved (z : {ffun 'I_n'.+1 -> vec}) a : mean0 (moved a z) = mean0 z.
Proof.
rewrite /mean0; congr (_ *: _); rewrite (reindex_inj (addIr a)) /=.
by apply: eq_bigr => i _; rewrite ffunE addrK.
Qed.

Lemma sizes_H_mala (delta : R) (z : {ffun 'I_n'.+1 -> vec}) phi x : delta != 0 ->
  sizes_H (delta, delta) z phi x = mala_log_H z (2%:R / delta) (1 / 2%:R * delta) x phi.
Proof.
move=> dn; rewrite /sizes_H l_mala //; congr (mala_log_H _ _ _ _ _).
by toR; field.
Qed.

Lemma one_step_real (delta : R) : 0 < delta ->
  [/\ forall z : vec, mala_ld delta z = sizes_ld (delta, delta) z /\ sizes_ld (delta, delta) (- z) = sizes_ld (delta, delta) z,
      forall (z : {ffun 'I_n'.+1 -> vec}) a phi x, sizes_H (delta, delta) (moved a z) phi x = sizes_H (delta, delta) z phi x,
      forall (z : {ffun 'I_n'.+1 -> vec}) phi x,
        sizes_H (delta, delta) z phi x = mala_log_H z (2%:R / delta) (1 / 2%:R * delta) x phi
    & forall u x g : vec, tp1_corr delta u x g
        = sizes_ld (delta, delta) (u - x - sizes_step (delta, delta) g) - sizes_ld (delta, delta) (u - x)].
Proof.
move=> d0; split.
- by move=> z; split; [exact: mala_sizes_ld|exact: sizes_ldN].
- by move=> z a phi x; rewrite /sizes_H mean0_moved.
- by move=> z phi x; rewrite sizes_H_mala // gt_eqF.
- by move=> u x g; exact: tp1_sizes_corr.
Qed.
End Mala.
