(** * Diagnostics: model of the summaries of the samples that stochastic_volatility/experiment.py:191-201, 229 and
    stochastic_volatility/results/results_analysis.py:39-58 compute.

    Samples are indexed by iteration [i < n] and chain [c < C]: [x i c] is one coordinate of a sample (experiment.py
    computes every coordinate separately) or its energy (results_analysis.py:209).  The functions of
    tensorflow-probability that the code calls are modelled from their documented formulas, with exact sums for the
    fast Fourier transforms.  [None] stands for NaN (a division by zero) or, where said so, for an exception. *)
From Coq Require Import Reals.
From mathcomp Require Import all_ssreflect all_algebra.
From Verif Require Import RInst.

Set Implicit Arguments.
Unset Strict Implicit.
Unset Printing Implicit Defensive.
Import GRing.Theory Num.Theory Order.TTheory.
Local Open Scope ring_scope.

(** [np.mean] over an axis of length [n]. *)
Definition axis_mean (n : nat) (x : nat -> R) : R := (\sum_(i < n) x i) / n%:R.

(** [tfp.stats.auto_correlation(x, axis=0, normalize=False)] at lag [l] (results_analysis.py:43-44): centred, divided
    by the number of terms. *)
Definition auto_cov (n : nat) (x : nat -> R) (l : nat) : R :=
  let m := axis_mean n x in (\sum_(i < n - l) (x i - m) * (x (i + l)%N - m)) / (n - l)%:R.
(** The lags it returns for the argument [max_lags], which it caps at [n - 1]. *)
Definition lags (n max_lags : nat) : seq nat := iota 0 (minn n.-1 max_lags).+1.

(** [tfp.mcmc.diagnostic._reduce_variance(y, biased=False)] over [C] values (results_analysis.py:46-49):
    [C / (C - 1)] times the biased variance; for [C = 1] it is [inf * 0]. *)
Definition reduce_variance (C : nat) (y : nat -> R) : option R :=
  if C%:R - 1 == 0 :> R then None
  else Some (C%:R / (C%:R - 1) * axis_mean C (fun c => (y c - axis_mean C y) ^+ 2)).

(** results_analysis.py:39-58, [chain_axis = 1].  [approx_variance] does not depend on the lag: when it is zero every
    entry is NaN. *)
Definition cross_chains_autocorr (max_lags n C : nat) (x : nat -> nat -> R) : option (seq R) :=
  let biased_within_chain_variance := axis_mean C (fun c => auto_cov n (x^~ c) 0) in
  let mean_auto_cov l := axis_mean C (fun c => auto_cov n (x^~ c) l) in
  obind (fun between_chain_variance_div_n =>
      let approx_variance := biased_within_chain_variance + between_chain_variance_div_n in
      if approx_variance == 0 then None
      else Some [seq 1 - (biased_within_chain_variance - mean_auto_cov l) / approx_variance | l <- lags n max_lags])
    (reduce_variance C (fun c => axis_mean n (x^~ c))).
(** results_analysis.py:26: [MAX_LAG]. *)
Definition MAX_LAG : nat := 249.

(** [tfp.stats.auto_correlation(x, axis=0, max_lags)], normalised by the value at lag 0 (experiment.py:200). *)
Definition auto_correlation (max_lags n : nat) (x : nat -> R) : option (seq R) :=
  if auto_cov n x 0 == 0 then None else Some [seq auto_cov n x l / auto_cov n x 0 | l <- lags n max_lags].

(** [tfp.mcmc.effective_sample_size] with its defaults [filter_beyond_lag=None], [filter_threshold=0.] and with
    [filter_beyond_positive_pairs=False], from the autocorrelations [r] at the lags [0 .. n-1]: the factor
    [(n - k) / n], the mask that is zero from the first negative autocorrelation on, and
    [C * n / (-1 + 2%:R * sum)]. *)
Definition ess_mask (r : seq R) (k : nat) : R := Num.max (1 - (count (fun v => v < 0) (take k.+1 r))%:R) 0.
Definition ess_formula (n C : nat) (r : seq R) : R :=
  C%:R * n%:R / (-1 + 2%:R * \sum_(k < size r) (n%:R - k%:R) / n%:R * r`_k * ess_mask r k).
(** experiment.py:194-198. *)
Definition samples_ess (n M : nat) (x : nat -> nat -> R) : option R :=
  if (1 < M)%N then omap (fun r => ess_formula n M r / M%:R) (cross_chains_autocorr n.-1 n M x)
  else omap (ess_formula n 1) (auto_correlation n.-1 n (x^~ 0%N)).

(** experiment.py:200-201: the mean over chains is NaN as soon as one of them is. *)
Definition N_LAGS : nat := 1000.
Definition samples_acf (n M : nat) (x : nat -> nat -> R) : option (seq R) :=
  if all (fun c => isSome (auto_correlation N_LAGS n (x^~ c))) (iota 0 M)
  then Some [seq axis_mean M (fun c => (oapp id [::] (auto_correlation N_LAGS n (x^~ c)))`_l) | l <- lags n N_LAGS]
  else None.

(** numpy's rule for an axis of length [k] given [v] where an axis of length [k] is expected: equal lengths, or a
    single entry repeated, or an exception ([None]). *)
Definition fits (A : Type) (k : nat) (v : seq A) : option (seq A) :=
  if size v == k then Some v else if v is [:: a] then Some (nseq k a) else None.
(** experiment.py:219, 237: [acf_all[k, ...] = samples_iacf_k], the axis of lags of length [N_LAGS + 1]. *)
Definition saved_acf (A : Type) (acf : seq A) : option (seq A) := fits N_LAGS.+1 acf.
(** experiment.py:191-192, for one chain: [reshape(final_pct, (M, -1)) * ones((M, T))]; particle kernels have a rate
    for every time, the others one rate. *)
Definition saved_pct (T : nat) (rates : seq R) : option (seq R) := fits T rates.
(** experiment.py:229: [adapted_delta_k * np.ones((args.T,))]. *)
Definition saved_delta (T : nat) (delta : seq R) : option (seq R) := fits T delta.
