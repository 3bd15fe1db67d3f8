{
 "claims": [
  {
   "property": "C01",
   "status": "proved",
   "theorems": [
    "C01_normalize"
   ],
   "note": ""
  },
  {
   "property": "C02",
   "status": "proved",
   "theorems": [
    "C02_multinomial"
   ],
   "note": ""
  },
  {
   "property": "C03",
   "status": "proved",
   "theorems": [
    "C03_killing_conditional"
   ],
   "note": ""
  },
  {
   "property": "C04",
   "status": "proved",
   "theorems": [
    "C04_killing_unbiased"
   ],
   "note": ""
  },
  {
   "property": "C05",
   "status": "proved",
   "theorems": [
    "C05_reference_lineage_kept"
   ],
   "note": ""
  },
  {
   "property": "C06",
   "status": "proved",
   "theorems": [
    "C06_barker_move"
   ],
   "note": ""
  },
  {
   "property": "C07",
   "status": "partial",
   "theorems": [
    "C07_force_move_refuted",
    "C07_force_move_reversible",
    "C07_force_move_error_bound"
   ],
   "note": "The full claim is false of the code in the guarded interval [threshold, 1): witness proved. Proved outside that interval, with a quantitative bound on the error for every probability vector."
  },
  {
   "property": "C08",
   "status": "partial",
   "theorems": [
    "C08_peskun_refuted",
    "C08_force_move_dominates_barker"
   ],
   "note": "False of the code in the guarded interval (witness proved); proved outside it."
  },
  {
   "property": "C09",
   "status": "partial",
   "theorems": [
    "C09_force_alpha_refuted",
    "C09_force_alpha_bound"
   ],
   "note": "False of the code (witness proved). Proved: the reported value is an upper bound, exact when the reference has the largest weight."
  },
  {
   "property": "C10",
   "status": "partial",
   "theorems": [
    "C10_csmc_tracing",
    "C10_code_contracts",
    "C10_C11_general",
    "C10_force_move_refuted",
    "C10_C11_force_move_error"
   ],
   "note": "Proved for every resampling scheme and final move meeting their contracts, which the code's multinomial, killing and Barker meet. With the forced move the exact claim is false of the code (witness proved); an error bound is proved for it. Finite state spaces."
  },
  {
   "property": "C11",
   "status": "partial",
   "theorems": [
    "C11_csmc_backward",
    "C10_code_contracts",
    "C10_C11_general",
    "C10_C11_force_move_error"
   ],
   "note": "As C10: exact for moves meeting their contract, error bound for the forced move."
  },
  {
   "property": "C12",
   "status": "proved",
   "theorems": [
    "C12_reference_carried"
   ],
   "note": ""
  },
  {
   "property": "C13",
   "status": "proved",
   "theorems": [
    "C13_trajectory_of_particles"
   ],
   "note": ""
  },
  {
   "property": "C14",
   "status": "proved",
   "theorems": [
    "C14_unchanged_index"
   ],
   "note": ""
  },
  {
   "property": "C15",
   "status": "partial",
   "theorems": [
    "C15_unconditional_refuted",
    "C15_unconditional_ignores_reference"
   ],
   "note": "False for backward=False with the forced move (witness proved); proved for backward=True and for the Barker move."
  },
  {
   "property": "C16",
   "status": "partial",
   "theorems": [
    "C16_keys_csmc",
    "C16_keys_callbacks",
    "C16_keys_rw_l_al",
    "C16_keys_atp_tp",
    "C16_keys_single",
    "C16_keys_loops",
    "C16_keys_t_atp",
    "C16_keys_al_s_atp_s_partial",
    "C16_keys_al_s_atp_s_refuted"
   ],
   "note": "Every kernel and loop of gradient_csmc. Holds of all of them except al_csmc_s.py and atp_csmc_s.py with T = 2 and backward sampling, where a key is consumed twice (refuted); these two are proved for T >= 3 or backward scanning."
  },
  {
   "property": "C17",
   "status": "proved",
   "theorems": [
    "C17_rw_invariant",
    "C17_rw_force_move_error"
   ],
   "note": "For every final move meeting its contract (Barker does, C06); for the forced move, which does not (C07), an error bound is proved. States range over any finite abelian group standing for R^d."
  },
  {
   "property": "C18",
   "status": "proved",
   "theorems": [
    "C18_guard_finite",
    "C18_guard_cases",
    "C18_rw_finite"
   ],
   "note": ""
  },
  {
   "property": "C19",
   "status": "proved",
   "theorems": [
    "C19_al_f_invariant",
    "C19_al_f_force_move_error"
   ],
   "note": "For every final move meeting its contract (Barker does, C06); for the forced move, which does not (C07), an error bound is proved. States range over any finite abelian group standing for R^d."
  },
  {
   "property": "C20",
   "status": "proved",
   "theorems": [
    "C20_l_f_invariant",
    "C20_l_f_force_move_error"
   ],
   "note": "For every final move meeting its contract (Barker does, C06); for the forced move, which does not (C07), an error bound is proved. States range over any finite abelian group standing for R^d. The correction is characterised as the summed-out density; C21 proves this of the Gaussian formula."
  },
  {
   "property": "C21",
   "status": "proved",
   "theorems": [
    "C21_correction_is_marginal",
    "C21_correction_completes_square",
    "C21_weight_is_marginal"
   ],
   "note": "All particle counts, dimensions, positions, shifts and step sizes > 0. The integral over the auxiliary variable is any homogeneous translation-invariant functional; the second theorem gives the underlying completed square with no integral."
  },
  {
   "property": "C22",
   "status": "proved",
   "theorems": [
    "C22_log_H_is_marginal",
    "C22_log_H_completes_square",
    "C22_log_H_is_block_density"
   ],
   "note": "Symmetric positive definite C and E, any B. Real arithmetic, so nan_to_num is the identity."
  },
  {
   "property": "C23",
   "status": "proved",
   "theorems": [
    "C23_bis_is_general",
    "C23_mala_is_general",
    "C23_l_is_mala"
   ],
   "note": "Exact equality, for symmetric positive definite gain matrix K and delta > 0."
  },
  {
   "property": "C24",
   "status": "proved",
   "theorems": [
    "C24_mvn_logpdf",
    "C24_swap",
    "C24_rvs",
    "C24_norm_logpdf"
   ],
   "note": "Lower-triangular factor with non-zero diagonal; exact real arithmetic."
  },
  {
   "property": "C25",
   "status": "partial",
   "theorems": [
    "C25_mean",
    "C25_covariance",
    "C25_sampled",
    "C25_inverse_gain",
    "C25_density_refuted",
    "C25_density_partial"
   ],
   "note": "The full statement is false of the code: chol_inv = U / temp (atp_csmc_f.py:153) is not the inverse of chol = U * temp unless Q = diag(G). C25_density_refuted gives a witness in dimension 2; C25_density_partial proves that the density is right up to a constant exactly when Q = diag(G). Mean, covariance, sampling and inverse gain are proved for every orthogonal factorisation; the computation of the factorisation itself (jnp.linalg.svd) is not modelled. Covariance needs the clipping at 1e-15 to be inactive."
  },
  {
   "property": "C26",
   "status": "proved",
   "theorems": [
    "C26_factorisation",
    "C26_auxiliary_variables",
    "C26_full_gradient",
    "C26_reduces_to_filtering"
   ],
   "note": "Over any abelian group; the gradient is compared with directional derivatives over any real vector space."
  },
  {
   "property": "C27",
   "status": "partial",
   "theorems": [
    "C27_shapes_partial",
    "C27_shapes_refuted"
   ],
   "note": "Proved for T >= 3 and, with backward scanning, T = 2. For T = 2 with backward sampling every execution returns arrays of length 3."
  },
  {
   "property": "C28",
   "status": "partial",
   "theorems": [
    "C28_predecessors_partial",
    "C28_predecessors_refuted"
   ],
   "note": "Proved for all generations but the first one that has a predecessor. Refuted there: x0 has been overwritten by its resampled copy and is resampled again with the ancestors of generation 2."
  },
  {
   "property": "C29",
   "status": "partial",
   "theorems": [
    "C29_reference_rw_l_al",
    "C29_shapes_rw_l_al",
    "C29_shapes_atp_tp",
    "C29_shapes_t_atp",
    "C12_reference_carried",
    "C29_reference_al_s",
    "C29_reference_atp_s_refuted"
   ],
   "note": "Holds of csmc, rw_csmc, l_csmc_f, al_csmc_f, atp_csmc_f, tp_csmc, t_atp_csmc_f, al_csmc_s. Refuted for atp_csmc_s.py, which never uses the reference states."
  },
  {
   "property": "C30",
   "status": "partial",
   "theorems": [
    "C30_mala_auxiliary",
    "C30_mala_marginal",
    "C30_code_moves",
    "C30_mala_force_move_refuted",
    "C30_mala_force_move_error",
    "C30_mala_auxiliary_ratio",
    "C30_mala_marginal_ratio",
    "C30_log_density"
   ],
   "note": "Both styles. The code hard-wires force_move, for which the exact claim is false (witness proved); proved exactly for every selection meeting its contract (Barker does), with an error bound for force_move, and the exact law of the kernel with force_move and one proposal. States range over any finite abelian group standing for R^(T d)."
  },
  {
   "property": "C31",
   "status": "partial",
   "theorems": [
    "C31_tp",
    "C31_tp_force_move_refuted",
    "C31_tp_force_move_error",
    "C31_tp_ratio",
    "C31_correction"
   ],
   "note": "The code hard-wires force_move, for which the exact claim is false (witness proved); proved exactly for every selection meeting its contract (Barker does), with an error bound for force_move, and the exact law of the kernel with force_move and one proposal. The posterior sampler is characterised by its law; C38 is about the code that implements it."
  },
  {
   "property": "C32",
   "status": "partial",
   "theorems": [
    "C32_imh",
    "C32_imh_force_move_refuted",
    "C32_imh_force_move_error",
    "C32_imh_ratio",
    "C33_step_imh"
   ],
   "note": "The code hard-wires force_move, for which the exact claim is false (witness proved); proved exactly for every selection meeting its contract (Barker does), with an error bound for force_move, and the exact law of the kernel with force_move and one proposal."
  },
  {
   "property": "C33",
   "status": "proved",
   "theorems": [
    "C33_step",
    "C33_step_imh",
    "C33_history",
    "C33_history_imh"
   ],
   "note": ""
  },
  {
   "property": "C34",
   "status": "proved",
   "theorems": [
    "C34_interval",
    "C34_interval_t_atp",
    "C34_interval_tp"
   ],
   "note": "Real arithmetic: min_delta <= delta needs no NaN in the step sizes."
  },
  {
   "property": "C35",
   "status": "proved",
   "theorems": [
    "C35_direction",
    "C35_direction_t_atp",
    "C35_mean",
    "C35_direction_tp"
   ],
   "note": "Also the size of the change. Window size >= 1, positive target, least rate and least step size."
  },
  {
   "property": "C36",
   "status": "proved",
   "theorems": [
    "C36_records",
    "C36_records_tp",
    "C36_keeps_target"
   ],
   "note": "Equality of programs: same draws, keys and results."
  },
  {
   "property": "C37",
   "status": "proved",
   "theorems": [
    "C37_same_loop",
    "C37_accounts"
   ],
   "note": "The host callbacks are modelled as events emitted in order."
  },
  {
   "property": "C38",
   "status": "proved",
   "theorems": [
    "C38_update",
    "C38_predict",
    "C38_filter_sampler_smoother",
    "C38_draw",
    "C38_smoothed_marginal",
    "C38_prior_sampling",
    "C38_cholesky"
   ],
   "note": "every dimension, every number of steps, every symmetric positive definite covariance (the filter is entered with one matrix per step); exact real arithmetic; jnp.linalg.cholesky is modelled by the recursion it is defined by and proved to return the only lower triangular factor with positive diagonal; nan_to_num is modelled as the identity, so degenerate covariances are outside the hypotheses"
  },
  {
   "property": "C39",
   "status": "partial",
   "theorems": [
    "C39_step_iff",
    "C39_reversed_refuted",
    "C39_gain_refuted",
    "C39_reversed_partial"
   ],
   "note": "The full statement is false of the code (mean recursion F' m - F' b, covariance F' P F, gain F P instead of P F'): one-dimensional witness with a drift, two-dimensional witness with F not symmetric. Each step is the reversal exactly when three matrix conditions hold; under them the whole chain is reversed."
  },
  {
   "property": "C40",
   "status": "partial",
   "theorems": [
    "C40_lgssm",
    "C40_lgssm_twisted",
    "C40_sv",
    "C40_sv_twisted",
    "C40_sv_mala_iff",
    "C40_sv_mala_refuted",
    "C40_sv_mala_actual",
    "C40_sv_mala_partial"
   ],
   "note": "Proved for every kernel of both experiments except MALA in the stochastic volatility experiment, whose log_pdf multiplies the prediction by b instead of adding it (model.py:72): refuted for every parameter of the experiment and every horizon >= 2, with the density it does target; proved for a single time step."
  },
  {
   "property": "C41",
   "status": "partial",
   "theorems": [
    "C41_covariances",
    "C41_stationary_covariance",
    "C41_stationary_mean_iff",
    "C41_stationary_mean_refuted",
    "C41_stationary_partial"
   ],
   "note": "The covariance is stationary for all parameters. The drift is (I + F) mu instead of (I - F) mu, so the mean is stationary exactly when nu phi = 0, as in the experiment."
  },
  {
   "property": "C42",
   "status": "partial",
   "theorems": [
    "C42_lgssm_accepted",
    "C42_dispatch",
    "C42_dispatch_sv",
    "C42_lgssm_once",
    "C42_lgssm_files",
    "C42_sv_accepted_partial",
    "C42_sv_accepted_refuted",
    "C42_sv_once_refuted",
    "C42_sv_kernels_refuted",
    "C42_sv_files_refuted"
   ],
   "note": "lgssm_scaling: proved. stochastic_volatility: false; the grid zips 18 kernels with 14 styles, so 12 of its 56 configurations are rejected, one of the 8 launched ones is launched twice, and the TP and MALA results read by the analysis are never produced. The launched 8 are accepted."
  },
  {
   "property": "C43",
   "status": "proved",
   "theorems": [
    "C43_tp_invariant",
    "C43_tp_force_move_error",
    "C43_correction"
   ],
   "note": "For every final move meeting its contract (Barker does, C06); for the forced move, which does not (C07), an error bound is proved. States range over any finite abelian group standing for R^d. The correction is characterised as the summed-out density; C43_correction proves this of the Gaussian formula with the proposal parameters of the code."
  },
  {
   "property": "C44",
   "status": "partial",
   "theorems": [
    "C44_atp_invariant_partial",
    "C44_atp_force_move_error_partial",
    "C25_density_refuted",
    "C25_density_partial"
   ],
   "note": "Proved under the hypothesis that the evaluated proposal density is the sampled one up to a constant; C25 shows that this is false of the code unless Q = diag(G)."
  },
  {
   "property": "C45",
   "status": "partial",
   "theorems": [
    "C45_proposals",
    "C45_target_partial",
    "C45_target_refuted",
    "C45_kernel_invariant_partial",
    "C45_kernel_force_move_error_partial",
    "C39_step_iff"
   ],
   "note": "The proposals are the exact conditionals of the reversed chain, unconditionally. The target is the prior chain's only when the reversed dynamics are the reversal (C39); refuted for a one-dimensional drift. Invariance is proved for the target whose prior the proposals come from, on a finite abelian group standing for R^d."
  },
  {
   "property": "C46",
   "status": "partial",
   "theorems": [
    "C46_al_s_scanning_invariant",
    "C46_al_s_scanning_force_move_error",
    "C46_al_s_sampling_invariant_partial",
    "C46_al_s_sampling_force_move_error_partial",
    "C46_al_s_two_steps_refuted",
    "C46_al_s_three_steps_refuted",
    "C46_atp_s_refuted"
   ],
   "note": "al_csmc_s.py with backward scanning: proved. With backward sampling: proved for T >= 3 when the gradient of the potential of time 1 in its second argument does not depend on the state of time 0; refuted for T = 2 always, and for T = 3 by a witness without that condition (the weights used are not the right ones, C28). atp_csmc_s.py: refuted for every T. For every final move meeting its contract (Barker does, C06); for the forced move, which does not (C07), an error bound is proved. States range over any finite abelian group standing for R^d."
  },
  {
   "property": "C47",
   "status": "proved",
   "theorems": [
    "C47_lgssm_data",
    "C47_sv_data"
   ],
   "note": "The noises are taken as given (independent standard normal); C48 is about their keys."
  },
  {
   "property": "C48",
   "status": "partial",
   "theorems": [
    "C48_lgssm_data_refuted",
    "C48_sv_data",
    "C48_lgssm_experiment",
    "C48_sv_experiment"
   ],
   "note": "The linear Gaussian data generator draws the initial noise and all other noises with the same key (model.py:12-13), in every execution. The other programs are proved; the drivers around any kernel, data generator and loop that uses only its own key (C16)."
  },
  {
   "property": "C49",
   "status": "partial",
   "theorems": [
    "C49_inverse_factor_iff",
    "C49_energy_partial",
    "C49_energy_refuted"
   ],
   "note": "False of the code: solve(..., assume_a=\"pos\") is given a triangular factor and reads only its upper triangle. Right exactly for diagonal covariances; refuted at the parameters of the experiment."
  },
  {
   "property": "C50",
   "status": "proved",
   "theorems": [
    "C50_lgssm_init",
    "C38_filter_sampler_smoother"
   ],
   "note": "Exact real arithmetic."
  },
  {
   "property": "C51",
   "status": "partial",
   "theorems": [
    "C51_lgssm_bootstrap",
    "C51_sv_bootstrap",
    "C51_lgssm_preconditioned",
    "C51_sv_preconditioned_refuted"
   ],
   "note": "Bootstrap: proved in both experiments. Preconditioned: proved in the linear Gaussian experiment; refuted for every parameter of the stochastic volatility experiment (D >= 2, rho != 0), whatever factorisation the SVD returns."
  },
  {
   "property": "C52",
   "status": "proved",
   "theorems": [
    "C52_csmc_density",
    "C52_csmc_force_move_error"
   ],
   "note": "No finite state space. Ancestor tracing; C11 treats backward sampling on finite state spaces."
  },
  {
   "property": "C53",
   "status": "proved",
   "theorems": [
    "C53_rw_density",
    "C53_rw_force_move_error",
    "C53_rw_kernel_is_sweep"
   ],
   "note": "Exact reals; the guard against NaN is C18."
  },
  {
   "property": "C54",
   "status": "proved",
   "theorems": [
    "C54_al_density",
    "C54_al_force_move_error",
    "C54_al_kernel_is_sweep"
   ],
   "note": "Exact reals."
  },
  {
   "property": "C55",
   "status": "proved",
   "theorems": [
    "C55_l_density",
    "C55_l_force_move_error",
    "C55_l_kernel_is_sweep",
    "C21_correction_is_marginal"
   ],
   "note": "Exact reals. Backward sampling without the condition on gradients is C20, on finite groups."
  },
  {
   "property": "C56",
   "status": "proved",
   "theorems": [
    "C56_tp_density",
    "C56_tp_force_move_error"
   ],
   "note": "Exact reals, exact SVD, clipping of the variances at 1e-15 not active. Ancestor tracing; the samplers are replaced by the particles they return."
  },
  {
   "property": "C57",
   "status": "partial",
   "theorems": [
    "C57_atp_density_partial",
    "C57_atp_force_move_error_partial",
    "C57_atp_density_iff",
    "C57_atp_density_refuted"
   ],
   "note": "False of the code for covariances that are not diagonal: the density evaluated is not the one of the proposal (C25). Proved for Q_t = diag(G_t); with one time step this condition is necessary."
  },
  {
   "property": "C58",
   "status": "partial",
   "theorems": [
    "C58_t_atp_density_partial",
    "C58_t_atp_force_move_error_partial",
    "C45_target_refuted"
   ],
   "note": "False of the code in general: the potentials do not multiply up to the target when the reversed dynamics are not the reversal of the prior (C39, C45_target_refuted). Proved under the three conditions of C39, which hold for F_t = a_t I without drift. Exact reals, exact Cholesky factors; the samplers are replaced by the particles they return."
  },
  {
   "property": "C59",
   "status": "proved",
   "theorems": [
    "C59_mala_auxiliary_density",
    "C59_mala_auxiliary_error",
    "C59_mala_marginal_density",
    "C59_mala_marginal_error",
    "C59_tp_density",
    "C59_tp_noise",
    "C59_tp_error",
    "C59_imh_density",
    "C59_imh_error"
   ],
   "note": "Exact reals. Exact for moves meeting their contract (Barker); force_move, which the code uses, within the bound of C30-C32, where it is refuted that it is exact."
  },
  {
   "property": "C60",
   "status": "proved",
   "theorems": [
    "C60_csmc_indices",
    "C60_rw_indices",
    "C60_l_indices",
    "C60_al_indices",
    "C60_C61_contracts"
   ],
   "note": "Finite state spaces; the correction of l_csmc_f.py must not depend on the order of the particles, as is the case of the formula of the code."
  },
  {
   "property": "C61",
   "status": "proved",
   "theorems": [
    "C61_csmc",
    "C61_rw",
    "C61_l",
    "C61_al",
    "C61_csmc_force",
    "C61_rw_force",
    "C61_l_force",
    "C61_al_force",
    "C61_one_particle_refuted",
    "C60_C61_contracts"
   ],
   "note": "Finite state spaces. Geometric rate with an unspecified constant. The hypothesis of at least two particles is necessary (C61_one_particle_refuted). For force_move the limit is within force_eps over the rate."
  },
  {
   "property": "C62",
   "status": "proved",
   "theorems": [
    "C62_recorded_averages",
    "C62_last_state",
    "C62_consistent",
    "C36_records"
   ],
   "note": "Any kernel that settles in the sense of C61."
  },
  {
   "property": "C63",
   "status": "proved",
   "theorems": [
    "C63_auxiliary_mala",
    "C63_mala",
    "C63_imh",
    "C63_agrad",
    "C63_parts",
    "C63_prior_times_noise"
   ],
   "note": "Finite state spaces; C63_parts and C63_prior_times_noise show that the expressions of the code on real vectors meet the hypotheses (atp_csmc_f: diagonal prior covariance, C25)."
  },
  {
   "property": "C64",
   "status": "partial",
   "theorems": [
    "C64_al_s_recovers_partial",
    "C64_atp_s_potentials",
    "C64_atp_s_recovers_refuted",
    "C26_reduces_to_filtering"
   ],
   "note": "al_csmc_s.py: proved except for T = 2 with backward sampling, where its arrays have the wrong shape (C27). atp_csmc_s.py: same potentials, but the claim of README.md:39 is refuted for every T >= 2, because the reference is never inserted (C29)."
  },
  {
   "property": "C65",
   "status": "proved",
   "theorems": [
    "C65_flat_prior",
    "C65_flat_prior_aux",
    "C65_informative_prior",
    "C65_informative_prior_aux",
    "C65_turn"
   ],
   "note": "Pathwise in the normal draws: the draws of the limit are those of the code multiplied by an orthogonal matrix. Convergence of expectations of continuous observables; force_move is not covered because it is discontinuous at its threshold."
  },
  {
   "property": "C66",
   "status": "partial",
   "theorems": [
    "C66_vanishing_prior_refuted",
    "C66_unclipped_partial"
   ],
   "note": "False of the code: atp_csmc_f.py:150 clips variances at 1e-15, so the proposals tend to the mean plus sqrt(1e-15) U eps. While no variance is clipped the proposal is more concentrated than the prior."
  },
  {
   "property": "C67",
   "status": "proved",
   "theorems": [
    "C67_tp_indices",
    "C67_atp_indices",
    "C67_t_atp_indices",
    "C67_csmc_forgets",
    "C67_sweep_forgets",
    "C67_tp_forgets",
    "C67_atp_forgets",
    "C67_t_atp_forgets",
    "C60_C61_contracts"
   ],
   "note": "Finite state spaces. Geometric rate with an unspecified constant. The corrections of l_csmc_f.py and tp_csmc.py must not depend on the order of the particles, as is the case of the formulas of the code."
  },
  {
   "property": "C68",
   "status": "proved",
   "theorems": [
    "C68_tp",
    "C68_tp_force",
    "C60_C61_contracts"
   ],
   "note": "Finite state spaces; the correction is the marginal of the auxiliary variable, as in C22."
  },
  {
   "property": "C69",
   "status": "partial",
   "theorems": [
    "C69_atp_partial",
    "C69_atp_force_partial",
    "C69_t_atp_partial",
    "C69_t_atp_force_partial",
    "C69_density_refuted"
   ],
   "note": "Proved when the log-densities subtracted in the weights are right up to a constant (for the code: Q diagonal, C25; conditions of C39 for t_atp_csmc_f.py). Without this the chain converges to another law (C67) and the claim is refuted."
  },
  {
   "property": "C70",
   "status": "proved",
   "theorems": [
    "C70_mala_forgets",
    "C70_tp_forgets",
    "C70_imh_forgets",
    "C70_mala",
    "C70_mala_force",
    "C70_tp",
    "C70_tp_force",
    "C70_imh",
    "C70_imh_force",
    "C60_C61_contracts"
   ],
   "note": "Finite state spaces. Geometric rate with an unspecified constant."
  },
  {
   "property": "C71",
   "status": "proved",
   "theorems": [
    "C71_recorded_averages",
    "C71_last_state",
    "C36_records_tp"
   ],
   "note": "Any kernel that settles in the sense of C70."
  },
  {
   "property": "C72",
   "status": "proved",
   "theorems": [
    "C72_contracts",
    "C72_csmc",
    "C72_sweeps",
    "C72_tp_csmc",
    "C72_t_atp",
    "C72_smoothing",
    "C72_single",
    "C72_loops",
    "C72_experiments",
    "C72_data"
   ],
   "note": "Laws of noises, proposals and priors handed to the kernels are assumed to be probability mass functions."
  },
  {
   "property": "C73",
   "status": "proved",
   "theorems": [
    "C73_particles",
    "C73_positions",
    "C73_start",
    "C73_csmc",
    "C73_rw",
    "C73_l",
    "C73_al",
    "C73_tp_csmc",
    "C73_mala",
    "C73_tp"
   ],
   "note": "Finite state spaces. atp_csmc_f and t_atp_csmc_f are reached by C73_particles with C69; the constant is not given as a number."
  },
  {
   "property": "C74",
   "status": "proved",
   "theorems": [
    "C74_estimates",
    "C74_jump",
    "C74_bounds",
    "C74_csmc",
    "C74_rw",
    "C74_l",
    "C74_al",
    "C74_tp_csmc"
   ],
   "note": "Finite state spaces. The initial trajectories are assumed to be independent draws from the target (that the sampler of the code draws from it is C50, for Gaussians). atp_csmc_f, t_atp_csmc_f and the single-state kernels are reached by C74_estimates."
  },
  {
   "property": "C75",
   "status": "proved",
   "theorems": [
    "C75_csmc",
    "C75_rw",
    "C75_l",
    "C75_al",
    "C75_tp",
    "C75_recorded",
    "C75_acceptance",
    "C75_acceptance_consistent"
   ],
   "note": "Finite state spaces; the constant is not given as a number. C75_recorded, C75_acceptance and C75_acceptance_consistent apply to any kernel with the properties of C61 and C75."
  },
  {
   "property": "C76",
   "status": "proved",
   "theorems": [
    "C76_mala",
    "C76_tp",
    "C76_imh",
    "C76_recorded",
    "C76_acceptance",
    "C76_acceptance_consistent"
   ],
   "note": "Finite state spaces; the constant is not given as a number. The last three apply to any kernel with the properties of C70 and C76."
  },
  {
   "property": "C77",
   "status": "proved",
   "theorems": [
    "C77_particles",
    "C77_positions",
    "C77_csmc",
    "C77_rw",
    "C77_l",
    "C77_al",
    "C77_tp_csmc",
    "C77_mala",
    "C77_tp"
   ],
   "note": "Finite state spaces; the constant is not given as a number. atp_csmc_f and t_atp_csmc_f are reached by C77_particles."
  },
  {
   "property": "C78",
   "status": "proved",
   "theorems": [
    "C78_deviations",
    "C78_consistent",
    "C78_means"
   ],
   "note": "Any experiment that is sound in the sense of C73."
  },
  {
   "property": "C79",
   "status": "partial",
   "theorems": [
    "C79_autocorr_partial",
    "C79_lags",
    "C79_between_m1_and_1_refuted",
    "C79_one_chain",
    "C79_invariance",
    "C79_stuck"
   ],
   "note": "Partial: the values can exceed 1 (refuted with a witness; the bound is n/(n-l)), and for one chain the result is NaN. tensorflow_probability is modelled from its documented formulas."
  },
  {
   "property": "C80",
   "status": "partial",
   "theorems": [
    "C80_ess",
    "C80_invariance",
    "C80_acf",
    "C80_saved_partial",
    "C80_saved_refuted",
    "C80_saved_rates"
   ],
   "note": "Effective sample sizes and autocorrelations proved; that they can always be stored is false for 2 to 1000 samples. tensorflow_probability is modelled from its documented formulas."
  },
  {
   "property": "C81",
   "status": "proved",
   "theorems": [
    "C81_columns",
    "C81_energy_acf",
    "C81_means",
    "C81_ess",
    "C81_stat_unique",
    "C81_size",
    "C81_frame",
    "C81_names",
    "C81_groups",
    "C81_reload"
   ],
   "note": "numpy and pandas are modelled from their documentation; the text of the csv files and the plots are not modelled."
  },
  {
   "property": "C82",
   "status": "proved",
   "theorems": [
    "C82_uniform",
    "C82_degenerate",
    "C82_two",
    "C82_reversed"
   ],
   "note": "Laws of the modelled moves; pseudo-random numbers are ideal uniforms. C82_two leaves out current weights within 1e-12 of 1, where force_move samples uniformly (C07)."
  },
  {
   "property": "C83",
   "status": "partial",
   "theorems": [
    "C83_log_1_m_exp_refuted",
    "C83_at_greatest",
    "C83_below",
    "C83_log_1_m_exp_partial"
   ],
   "note": "Partial: the docstring is refuted. The function returns log(exp(m) - exp(x)), m the greatest entry, and minus infinity at m; this is log(1 - exp(x)) exactly when m = 0. Nothing in the repository calls the function."
  },
  {
   "property": "C84",
   "status": "proved",
   "theorems": [
    "C84_law",
    "C84_fails",
    "C84_decreasing",
    "C84_runs",
    "C84_scale",
    "C84_files",
    "C84_grid",
    "C84_sigma"
   ],
   "note": "Real arithmetic: 1/3 is exact. The lists of sizes from np.logspace are arbitrary lists of positive numbers."
  },
  {
   "property": "C85",
   "status": "proved",
   "theorems": [
    "C85_density",
    "C85_sampled"
   ],
   "note": "One trajectory; jnp.vectorize applies the function to each. Nothing in the repository calls it."
  },
  {
   "property": "C86",
   "status": "partial",
   "theorems": [
    "C86_invariant",
    "C86_has_result",
    "C86_iterations",
    "C86_code_contracts",
    "C86_agrees",
    "C86_unconditional_refuted",
    "C86_force_move_refuted"
   ],
   "note": "Partial: refuted for force_move, which may select a particle of weight 0 once the reference has weight at least 1 - 1e-12; proved for the two resampling schemes with the Barker move, and for every move that leaves the weights invariant. Without a reference the weights may be undefined (C86_unconditional_refuted). Numbers are IEEE values without rounding, so underflow of positive densities to 0 is not covered."
  },
  {
   "property": "C87",
   "status": "proved",
   "theorems": [
    "C87_invariant",
    "C87_has_result",
    "C87_iterations",
    "C87_agrees"
   ],
   "note": "For final moves that leave the weights invariant (the Barker move and both resampling schemes meet the contracts, C86_code_contracts); force_move is refuted in C86_force_move_refuted. Noise laws are even and positive, as the Gaussian ones are. Numbers are IEEE values without rounding."
  },
  {
   "property": "C88",
   "status": "partial",
   "theorems": [
    "C88_al_s_density",
    "C88_al_s_force_move_error",
    "C88_al_s_sampling_density_partial",
    "C88_al_s_sampling_force_move_error_partial",
    "C88_al_s_two_steps_refuted",
    "C88_al_s_kernel_is_sweep"
   ],
   "note": "Backward scanning proved in full. Partial for backward sampling: T >= 3 and a gradient at time 1 that does not depend on the state of time 0; refuted for T = 2, where the kernel returns three states. Densities on R^d are compared at given particles; integrals over the particles are not formed. That the kernel is its draws of noise followed by the sweep is stated on finite groups."
  },
  {
   "property": "C89",
   "status": "partial",
   "theorems": [
    "C89_weights_finite",
    "C89_imh",
    "C89_imh_force_move_error",
    "C89_iterations_partial",
    "C89_iterations_refuted",
    "C89_agrees"
   ],
   "note": "One step proved for every selection; any number of iterations for selections that leave the weights invariant (Barker). Refuted for force_move, which imh.py uses: it may select a trajectory of likelihood 0 once the current weight is at least 1 - 1e-12, and the next step may then have no finite weight. Numbers are IEEE values without rounding."
  },
  {
   "property": "C90",
   "status": "partial",
   "theorems": [
    "C90_weights_finite",
    "C90_mala_auxiliary",
    "C90_mala_marginal",
    "C90_tp",
    "C90_mala_force_move_error",
    "C90_tp_force_move_error",
    "C90_iterations_partial",
    "C90_iterations_refuted",
    "C90_undefined_gradient_mala",
    "C90_undefined_gradient_tp",
    "C90_agrees"
   ],
   "note": "One step proved for gradients that are defined everywhere, also where the density is 0; C90_undefined_gradient_* show that this cannot be left out: one proposal with an undefined gradient makes all weights undefined. Any number of iterations proved for selections that leave the weights invariant (Barker), refuted for force_move, which mala.py uses. The refutation is for mala.py; tp.py selects in the same way. Numbers are IEEE values without rounding."
  },
  {
   "property": "C91",
   "status": "proved",
   "theorems": [
    "C91_invariant",
    "C91_has_result",
    "C91_iterations",
    "C91_undefined_gradient",
    "C91_undefined_gradient_later",
    "C91_agrees"
   ],
   "note": "For final moves that leave the weights invariant (the Barker move and both resampling schemes meet the contracts, C86_code_contracts). Noise laws are positive, as the Gaussian ones are. Numbers are IEEE values without rounding. After time 0 an undefined gradient is treated when it is undefined from all previous states."
  },
  {
   "property": "C92",
   "status": "proved",
   "theorems": [
    "C92_invariant",
    "C92_has_result",
    "C92_iterations",
    "C92_undefined_gradient",
    "C92_undefined_gradient_later",
    "C92_agrees"
   ],
   "note": "For final moves that leave the weights invariant (the Barker move and both resampling schemes meet the contracts, C86_code_contracts). The correction is any function equal to the marginal density up to a factor common to all particles; C21 proves this of the Gaussian formula. Numbers are IEEE values without rounding. After time 0 an undefined gradient is treated when it is undefined from all previous states."
  },
  {
   "property": "C93",
   "status": "proved",
   "theorems": [
    "C93_any_proposal",
    "C93_atp_has_result",
    "C93_atp_iterations",
    "C93_atp_undefined_gradient",
    "C93_atp_undefined_gradient_later",
    "C93_atp_agrees",
    "C93_tp_has_result",
    "C93_tp_iterations",
    "C93_tp_undefined_gradient",
    "C93_tp_undefined_gradient_later",
    "C93_tp_agrees"
   ],
   "note": "No hypothesis on densities or corrections other than being real numbers. The code's schemes meet the contracts of the resampling scheme and of the Barker move (C86_code_contracts). Numbers are IEEE values without rounding."
  },
  {
   "property": "C94",
   "status": "partial",
   "theorems": [
    "C94_tp_invariant",
    "C94_atp_invariant_partial"
   ],
   "note": "tp_csmc.py: proved, for corrections equal to the marginal density up to a factor common to all particles (C43_correction). atp_csmc_f.py: proved when the proposal log-densities are right up to a constant; missing: this is false of the code unless Q = diag(G) (C25_density_refuted)."
  },
  {
   "property": "C95",
   "status": "proved",
   "theorems": [
    "C95_has_result",
    "C95_iterations",
    "C95_undefined_gradient",
    "C95_undefined_gradient_later",
    "C95_agrees"
   ],
   "note": "No hypothesis on the proposals other than their number and that their log-densities are real numbers. The code's schemes meet the contracts of the resampling scheme and of the Barker move (C86_code_contracts). Numbers are IEEE values without rounding."
  },
  {
   "property": "C96",
   "status": "partial",
   "theorems": [
    "C96_invariant_partial"
   ],
   "note": "Proved when the proposals together are the prior times the densities of the auxiliary variables; missing: this is false of the code unless the reversed dynamics are the reversal of the prior (C45_target_partial, C45_target_refuted)."
  }
 ]
}