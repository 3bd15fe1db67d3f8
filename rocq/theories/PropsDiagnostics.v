(** * Property theorems C79 and C80: autocorrelations and effective sample sizes.  Statements only; the proofs are in
    DiagnosticsProofs.v and DiagnosticsWitness.v.

    [cross_chains_autocorr], [samples_ess], [samples_acf], [saved_acf] (Diagnostics.v) model
    results_analysis.py:39-58 and experiment.py:194-201, 237; DiagnosticsSpec.v has its own definitions of the
    variances, covariances and effective sample sizes they are compared with. *)
From Coq Require Import Reals.
From mathcomp Require Import all_ssreflect all_fingroup all_algebra.
From Verif Require Import RInst Diagnostics DiagnosticsSpec DiagnosticsProofs DiagnosticsWitness.

Set Implicit Arguments.
Unset Strict Implicit.
Unset Printing Implicit Defensive.
Import GRing.Theory Num.Theory Order.TTheory.
Local Open Scope ring_scope.

(** ** C79 *)
(** Two chains or more: NaN exactly when all samples are equal; otherwise the estimator that corrects for the
    differences between chains, 1 at lag 0. *)
Theorem C79_autocorr_partial (L n C : nat) (x : nat -> nat -> R) : (0 < n)%N -> (1 < C)%N ->
  (cross_chains_autocorr L n C x = None <-> all_equal n C x) /\
  forall r, cross_chains_autocorr L n C x = Some r ->
    [/\ is_autocorr (minn n.-1 L) n C x r, r`_0 = 1 &
        forall l, (l < size r)%N -> `|r`_l| <= n%:R / (n - l)%:R].
Proof.
move=> n0 C1; split=> [|r E]; first exact: cross_none.
split; [exact: cross_autocorr|exact: cross_lag0 E|by move=> l hl; exact: (cross_bound n0 C1 E hl)].
Qed.
Print Assumptions C79_autocorr_partial.

(** The call of results_analysis.py has the lags 0 to 249. *)
Theorem C79_lags (n C : nat) (x : nat -> nat -> R) r : (249 < n)%N -> (1 < C)%N ->
  cross_chains_autocorr MAX_LAG n C x = Some r -> is_autocorr 249 n C x r.
Proof. exact: autocorr_249. Qed.
Print Assumptions C79_lags.

(** The full claim would be an autocorrelation: a number between -1 and 1. *)
Theorem C79_between_m1_and_1_refuted :
  ~ (forall n C x r l, (0 < n)%N -> (1 < C)%N -> cross_chains_autocorr MAX_LAG n C x = Some r -> (l < size r)%N ->
       -1 <= r`_l <= 1).
Proof.
move=> h; have [r E r4] := wit_above; have [sr _] := cross_autocorr (isT : (0 < 5)%N) (isT : (1 < 2)%N) E.
have := h 5%N 2%N wit_x r 4%N isT isT E; rewrite sr => /(_ isT) /andP[_]; rewrite r4.
by rewrite ler_pdivr_mulr ?ltr0n // mul1r ler_nat.
Qed.
Print Assumptions C79_between_m1_and_1_refuted.

(** One chain: NaN at every lag. *)
Theorem C79_one_chain (L n : nat) (x : nat -> nat -> R) : cross_chains_autocorr L n 1 x = None.
Proof. exact: cross_one_chain. Qed.
Print Assumptions C79_one_chain.

(** The unit and the sign of the energy and the order of the chains are immaterial. *)
Theorem C79_invariance (L n C : nat) (x y : nat -> nat -> R) : (0 < n)%N -> (1 < C)%N ->
  (forall a b, a != 0 -> rescaled n C a b x y -> cross_chains_autocorr L n C y = cross_chains_autocorr L n C x) /\
  (forall s, @reordered n C s x y -> cross_chains_autocorr L n C y = cross_chains_autocorr L n C x).
Proof. by move=> n0 C1; split=> [a b a0 h|s h]; [exact: (cross_affine L n0 C1 a0 h)|exact: (cross_reordered L n0 C1 h)]. Qed.
Print Assumptions C79_invariance.

(** Chains that never move and disagree are reported as perfectly correlated. *)
Theorem C79_stuck (L n C : nat) (x : nat -> nat -> R) r l : (0 < n)%N -> (1 < C)%N -> stuck n C x ->
  cross_chains_autocorr L n C x = Some r -> (l < size r)%N -> r`_l = 1.
Proof. by move=> n0 C1 st E; exact: (cross_stuck n0 C1 st E). Qed.
Print Assumptions C79_stuck.

Example ex_stuck : exists2 r, cross_chains_autocorr MAX_LAG 7 2 (fun _ c => c%:R) = Some r &
  forall l, (l < size r)%N -> r`_l = 1.
Proof. exact: wit_stuck. Qed.

(** ** C80 *)
(** NaN exactly when all samples are equal; otherwise the effective sample size of a chain, from the autocorrelations
    before the first negative one, between 1/2 and the number of samples. *)
Theorem C80_ess (n M : nat) (x : nat -> nat -> R) : (0 < n)%N -> (0 < M)%N ->
  (samples_ess n M x = None <-> all_equal n M x) /\
  forall e, samples_ess n M x = Some e ->
    (exists2 r, (if (1 < M)%N then is_autocorr n.-1 n M x r else is_chain_autocorr n.-1 n (x^~ 0%N) r) & is_ess n r e) /\
    n%:R / (2%:R * n%:R - 1) <= e <= n%:R.
Proof.
move=> n0 M0; split=> [|e E]; first exact: samples_ess_none.
by split; [exact: samples_ess_is|exact: samples_ess_bounds E].
Qed.
Print Assumptions C80_ess.

Theorem C80_invariance (n M : nat) (a b : R) (x y : nat -> nat -> R) : (0 < n)%N -> a != 0 -> rescaled n M a b x y ->
  (0 < M)%N -> samples_ess n M y = samples_ess n M x.
Proof. by move=> n0 a0 h M0; exact: (samples_ess_affine n0 M0 a0 h). Qed.
Print Assumptions C80_invariance.

(** The recorded autocorrelations: NaN exactly when a chain did not move; otherwise means over the chains, 1 at lag 0. *)
Theorem C80_acf (n M : nat) (x : nat -> nat -> R) : (0 < n)%N -> (0 < M)%N ->
  (samples_acf n M x = None <-> exists2 c, (c < M)%N & stuck n 1 (fun i _ => x i c)) /\
  forall r, samples_acf n M x = Some r ->
    [/\ size r = (minn n.-1 1000).+1, r`_0 = 1 & forall l, (l <= minn n.-1 1000)%N ->
        r`_l = M%:R^-1 * \sum_(c < M) lagged n 1 (fun i _ => x i c) l / within_chain n 1 (fun i _ => x i c)].
Proof.
move=> n0 M0; split=> [|r E]; first exact: samples_acf_none.
by have [h1 h2] := samples_acf_is n0 E; split=> //; exact: samples_acf_lag0 E.
Qed.
Print Assumptions C80_acf.

(** They can be stored when there are more than 1000 samples (the default is 45000), or one; *)
Theorem C80_saved_partial (n M : nat) (x : nat -> nat -> R) r : (0 < n)%N -> (0 < M)%N -> samples_acf n M x = Some r ->
  saved_acf r = if (1000 < n)%N then Some r else if n == 1%N then Some (nseq 1001 1) else None.
Proof. exact: saved_acf_ok. Qed.
Print Assumptions C80_saved_partial.

(** with 2 to 1000 samples the experiment raises an exception after it has sampled everything. *)
Theorem C80_saved_refuted :
  ~ (forall n M x r, (0 < n)%N -> (0 < M)%N -> samples_acf n M x = Some r -> isSome (saved_acf r)).
Proof. by move=> h; have [r E] := wit_unsaved; have := h 2%N 1%N wit_move r isT isT E; case: saved_acf. Qed.
Print Assumptions C80_saved_refuted.

(** Acceptance rates and step sizes have one entry for each time, or one for all times; anything else is refused. *)
Theorem C80_saved_rates (T : nat) (v : seq R) : (0 < T)%N ->
  saved_pct T v = saved_delta T v /\
  (saved_pct T v = None <-> size v <> T /\ size v <> 1%N) /\
  forall r, saved_pct T v = Some r -> size r = T /\ forall t, (t < T)%N -> r`_t = v`_(if size v == T then t else 0%N).
Proof. exact: saved_rates_ok. Qed.
Print Assumptions C80_saved_rates.

Example ex_ess : exists e, samples_ess 2 1 wit_move = Some e.
Proof.
case E : (samples_ess 2 1 wit_move) => [e|]; first by exists e.
by case: wit_one; apply/(samples_ess_none _ (isT : (0 < 2)%N) (isT : (0 < 1)%N)).
Qed.
