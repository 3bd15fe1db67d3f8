{"id": "C01", "title": "Weight normalisation returns a probability vector", "statement": "For every vector of finite log-weights, normalising it yields strictly positive weights that sum to one; ratios of weights are exactly the ratios of the exponentiated inputs; adding a constant to all log-weights changes nothing; and the log-space output is the logarithm of the natural-space output.", "quantifier": "every non-empty vector of finite log-weights of every length, every additive constant", "why_tests_cant": "Tests normalise a handful of vectors; the claim is for every length and every finite input.", "anchors": ["gradient_csmc/utils/resamplings.py:normalize"]}
{"id": "C02", "title": "Conditional multinomial resampling is exact conditioning", "statement": "With conditional=True, multinomial resampling draws from the law of unconditional multinomial resampling conditioned on 'ancestor j equals i': for every i, j and test function f, w_i * E[f(conditional(i,j))] = E[1{A_j = i} f(A)] under the unconditional scheme.", "quantifier": "every probability vector, every pair of indices (i, j), every function of the ancestor array", "why_tests_cant": "A law over N^N ancestor arrays cannot be exhausted by sampling; tests only compare a few marginal frequencies.", "anchors": ["gradient_csmc/utils/resamplings.py:multinomial"]}
{"id": "C03", "title": "Conditional killing resampling is compatible with cSMC", "statement": "With conditional=True, killing resampling draws from a law compatible with a single index-exchangeable killing scheme: there is one law on ancestor arrays (independent of j), obtained from unconditional killing by a uniform rotation, such that for every i, j and f, w_i * E[f(conditional(i,j))] = E[1{A_j = i} f(A)].", "quantifier": "every strictly positive probability vector, every pair of indices (i, j), every function of the ancestor array", "why_tests_cant": "Exact law over N^N arrays with a data-dependent random rotation; sampling cannot settle equality of laws.", "anchors": ["gradient_csmc/utils/resamplings.py:killing"]}
{"id": "C04", "title": "Killing resampling is unbiased and inert on uniform weights", "statement": "Unconditional killing resampling gives every particle i expected offspring number N*w_i, and when all weights are equal it returns the identity ancestor array with probability one.", "quantifier": "every probability vector of every length with positive maximum", "why_tests_cant": "Unbiasedness is an expectation identity over every weight vector.", "anchors": ["gradient_csmc/utils/resamplings.py:killing"]}
{"id": "C05", "title": "Conditional resampling always keeps the reference lineage", "statement": "In every execution of either resampling scheme with conditional=True, the returned array has entry j equal to i, whatever the random draws.", "quantifier": "every weight vector, every i, j, every outcome of the random draws", "why_tests_cant": "Must hold on every random outcome, including zero-probability-looking ones.", "anchors": ["gradient_csmc/utils/resamplings.py:multinomial", "gradient_csmc/utils/resamplings.py:killing"]}
{"id": "C06", "title": "barker_move samples the weights exactly and reports the leave probability", "statement": "barker_move returns index i with probability w_i whatever the reference index k, hence leaves the weights invariant, and the returned second component equals the probability that the returned index differs from k.", "quantifier": "every probability vector, every reference index", "why_tests_cant": "Equality of laws for all weights and indices.", "anchors": ["gradient_csmc/utils/common.py:barker_move"]}
{"id": "C07", "title": "force_move leaves the weights invariant", "statement": "The forced move is reversible (hence invariant) with respect to the categorical law of the weights: w_k P(k -> i) = w_i P(i -> k) for every pair, for every weight vector.", "quantifier": "every probability vector (including degenerate ones and weights numerically close to one), every pair of indices", "why_tests_cant": "The existing tests only check frequencies on uniform, degenerate and two-point weights; the guard branch for weights close to one is never hit by them.", "anchors": ["gradient_csmc/utils/common.py:force_move"]}
{"id": "C08", "title": "force_move dominates barker_move", "statement": "For every reference index k and every other index i, the forced move goes from k to i with probability at least w_i, i.e. at least as often as the Barker move (Peskun ordering); in particular its probability of staying at k is at most w_k.", "quantifier": "every probability vector, every pair of distinct indices", "why_tests_cant": "Inequality over the whole simplex.", "anchors": ["gradient_csmc/utils/common.py:force_move", "gradient_csmc/utils/common.py:barker_move"]}
{"id": "C09", "title": "The acceptance probability reported by force_move is the leave probability", "statement": "The second value returned by force_move (documented as the probability of accepting the new sample) equals the probability that the returned index differs from k.", "quantifier": "every probability vector, every reference index", "why_tests_cant": "The tests check alpha only on vectors where it happens to be exact.", "anchors": ["gradient_csmc/utils/common.py:force_move"]}
{"id": "C10", "title": "cSMC with ancestor tracing leaves the path target invariant", "statement": "If a reference trajectory is drawn from the normalised path target prod_t Gamma_t and reference indices uniformly, then the trajectory and indices returned by the conditional SMC kernel with backward=False have the same joint law, for every number of particles and time steps, with multinomial or killing resampling and with the Barker or forced final move.", "quantifier": "every horizon T>=1, every number of particles N+1>=1, every proposal, target, resampling scheme and final move satisfying their contracts, every test function of the output", "why_tests_cant": "Invariance is an equality of laws over exponentially many trajectories; Monte Carlo tests can only fail to reject it.", "anchors": ["gradient_csmc/csmc.py:kernel", "gradient_csmc/csmc.py:forward_pass", "gradient_csmc/csmc.py:backward_scanning_pass"]}
{"id": "C11", "title": "cSMC with backward sampling leaves the path target invariant", "statement": "The same invariance statement for the conditional SMC kernel with backward=True.", "quantifier": "every horizon T>=1, every number of particles, every Markov proposal and target, every compatible resampling scheme and final move, every test function", "why_tests_cant": "Equality of laws; the backward pass discards and re-draws ancestors so no finite test certifies it.", "anchors": ["gradient_csmc/csmc.py:kernel", "gradient_csmc/csmc.py:backward_sampling_pass"]}
{"id": "C12", "title": "The conditional forward pass always carries the reference", "statement": "In every execution of the conditional forward pass, at each time t particle number b*[t] equals x*[t], and its recorded ancestor is b*[t-1].", "quantifier": "every horizon, every reference trajectory and index sequence, every random outcome", "why_tests_cant": "All executions.", "anchors": ["gradient_csmc/csmc.py:forward_pass"]}
{"id": "C13", "title": "The returned trajectory is made of generated particles at the returned indices", "statement": "In every execution of the kernel (both backward modes, conditional or not) the returned trajectory and indices have the length of the reference, each returned state at time t is particle number Bs[t] of the generation at time t; with backward=False consecutive indices are linked by the recorded ancestors.", "quantifier": "every execution, every configuration", "why_tests_cant": "All executions.", "anchors": ["gradient_csmc/csmc.py:kernel", "gradient_csmc/csmc.py:backward_sampling_pass", "gradient_csmc/csmc.py:backward_scanning_pass"]}
{"id": "C14", "title": "The acceptance statistic is sound: an unchanged index means an unchanged state", "statement": "After a conditional sweep, if the returned index at time t equals the reference index at time t then the returned state at time t equals the reference state; hence the acceptance indicator computed by the drivers (returned index differs from the previous one) never reports 'rejected' for a time step that was modified.", "quantifier": "every execution of the conditional kernel, every time index", "why_tests_cant": "All executions and histories.", "anchors": ["gradient_csmc/csmc.py:kernel", "experiments/lgssm_scaling/experiment.py", "gradient_csmc/utils/mcmc_utils.py:delta_adaptation_routine"]}
{"id": "C15", "title": "Unconditional SMC ignores the reference", "statement": "With conditional=False the law of everything the kernel returns does not depend on the values of the reference trajectory and of the reference indices passed in.", "quantifier": "every pair of references of the same length, both backward modes, every final move", "why_tests_cant": "Equality of laws for every pair of inputs.", "anchors": ["gradient_csmc/csmc.py:kernel"]}
{"id": "C16", "title": "Every pseudo-random key is consumed at most once", "statement": "In every execution of the cSMC kernel (and of each specialised kernel) started from one key, no two random draws consume the same key, no consumed key is an ancestor of another consumed key, and all consumed keys descend from the key passed in.", "quantifier": "every execution, every horizon and number of particles, every callback that respects the same discipline", "why_tests_cant": "Key reuse is silent: outputs look random in any single test.", "anchors": ["gradient_csmc/csmc.py:kernel", "gradient_csmc/utils/resamplings.py:killing", "gradient_csmc/utils/common.py:force_move", "gradient_csmc/rw_csmc.py:kernel", "gradient_csmc/al_csmc_f.py:kernel", "gradient_csmc/l_csmc_f.py:kernel", "gradient_csmc/tp.py:get_kernel", "gradient_csmc/mala.py:kernel"]}
{"id": "C17", "title": "Random-walk cSMC leaves the path target invariant", "statement": "The random-walk cSMC kernel (auxiliary Gaussian perturbation of the reference followed by a cSMC sweep around it) leaves the path target invariant.", "quantifier": "every target, every step size, horizon, number of particles, both backward modes", "why_tests_cant": "Equality of laws for every target.", "anchors": ["gradient_csmc/rw_csmc.py:kernel"]}
{"id": "C18", "title": "Random-walk cSMC never returns a non-finite trajectory from a finite reference", "statement": "If the reference trajectory is finite, the trajectory returned by the random-walk cSMC kernel is finite: when the sweep produces any non-finite state, the old trajectory and indices are returned.", "quantifier": "every execution, including those where the sweep produces NaN or infinity", "why_tests_cant": "NaN-producing executions are rare events no test reproduces on demand.", "anchors": ["gradient_csmc/rw_csmc.py:kernel"]}
{"id": "C19", "title": "Auxiliary-MALA cSMC leaves the path target invariant", "statement": "The Particle-aMALA kernel (auxiliary variables centred on a gradient step of the filtering gradient, cSMC sweep on the augmented target) leaves the path target invariant, whatever the gradient function is.", "quantifier": "every target, every gradient field, every step-size vector, horizon, number of particles, both backward modes", "why_tests_cant": "Equality of laws for every target.", "anchors": ["gradient_csmc/al_csmc_f.py:kernel"]}
{"id": "C20", "title": "Particle-MALA leaves the path target invariant", "statement": "The Particle-MALA kernel, whose particle weights carry a marginalisation correction for the integrated-out auxiliary variable, leaves the path target invariant, whatever the gradient function is and although its backward pass uses uncorrected weights.", "quantifier": "every target, every gradient field, every step-size vector, horizon, number of particles, both backward modes", "why_tests_cant": "Equality of laws for every target; a wrong correction biases results by small amounts.", "anchors": ["gradient_csmc/l_csmc_f.py:kernel"]}
{"id": "C21", "title": "Particle-MALA weight correction is the marginal Gaussian density", "statement": "For every set of N+1 particles and gradient shifts, the correction added to particle n's log-weight equals, up to a term not depending on n, the log of the density of the other particles given particle n when the auxiliary variable is integrated out.", "quantifier": "every number of particles, dimension, particle positions, gradients, step size", "why_tests_cant": "Algebraic identity over all real vectors.", "anchors": ["gradient_csmc/l_csmc_f.py:kernel"]}
{"id": "C22", "title": "get_log_H is the marginalised proposal density", "statement": "For all particles, offsets, matrices B, C (invertible), E and shifts, get_log_H(...)(x_n, d_n, phi_n) equals, up to a term not depending on n, the log density of the remaining particles under N(d + B(x_n + phi_n), I (x) C + 1 1^T (x) B E B^T).", "quantifier": "every number of particles, dimension, symmetric positive definite C and E, any B, every particle configuration", "why_tests_cant": "Test compares random 5-dimensional instances numerically; the identity is claimed for every dimension and number of particles.", "anchors": ["gradient_csmc/utils/marginalisation.py:get_log_H", "gradient_csmc/utils/test_marginalisation.py"]}
{"id": "C23", "title": "Specialised and general marginal corrections agree", "statement": "The specialised correction used by Particle-mGRAD (tp_csmc) and the scalar one used by multi-proposal MALA agree, up to n-independent constants, with the general marginal correction for the corresponding matrices.", "quantifier": "every number of particles, dimension, gain matrix, step size, particle configuration", "why_tests_cant": "Algebraic identity over all real matrices.", "anchors": ["gradient_csmc/tp_csmc.py:get_log_H_bis", "gradient_csmc/mala.py:get_log_H", "gradient_csmc/utils/marginalisation.py:get_log_H"]}
{"id": "C24", "title": "Gaussian log-density evaluator", "statement": "mvn_logpdf(x, m, chol) with and without a supplied inverse factor returns the same value, equal to the Gaussian log-density with covariance chol chol^T (up to the normalising constant when constant=False), and its argument (x, m) can be swapped.", "quantifier": "every dimension, every lower-triangular factor with non-zero diagonal, every x and m", "why_tests_cant": "Identity over all real matrices.", "anchors": ["gradient_csmc/utils/math.py:mvn_logpdf", "gradient_csmc/utils/math.py:_logpdf_with_inv", "gradient_csmc/utils/math.py:_logpdf"]}
{"id": "C25", "title": "The twisted proposal density evaluated in the weights is the density sampled from", "statement": "For Particle-aGRAD (atp_csmc_f) the log-density used in the importance weights for the preconditioned proposal is the log-density of the distribution the particles are drawn from: mean m + K(u - m) and covariance Q - K Q with K = Q (Q + delta/2 I)^-1.", "quantifier": "every dimension, every transition covariance Q, every step size", "why_tests_cant": "The isotropic covariances of the shipped tests hide orientation errors of the factor.", "anchors": ["gradient_csmc/atp_csmc_f.py:make_proposal", "gradient_csmc/atp_csmc_f.py:M0_logpdf", "gradient_csmc/atp_csmc_f.py:Mt_logpdf", "gradient_csmc/utils/math.py:mvn_logpdf"]}
{"id": "C26", "title": "Smoothing-gradient potentials factor the augmented target", "statement": "For the smoothing-gradient kernels the sum over time of the modified log-potentials equals the log target plus the log density of all auxiliary variables given the trajectory under the full-gradient Gaussian; when the transition potential does not depend on its first argument's gradient, they reduce to the filtering-gradient potentials.", "quantifier": "every trajectory, auxiliary sequence, target, gradient, step-size vector, horizon", "why_tests_cant": "Telescoping identity for all horizons.", "anchors": ["gradient_csmc/al_csmc_s.py:kernel", "gradient_csmc/atp_csmc_s.py:get_kernel", "gradient_csmc/al_csmc_f.py:kernel"]}
{"id": "C27", "title": "Smoothing-gradient kernels keep shapes", "statement": "For every horizon T >= 2, the trajectory and index arrays returned by the smoothing-gradient kernels have length T.", "quantifier": "every horizon T>=2, both backward modes", "why_tests_cant": "Short horizons are not exercised by tests.", "anchors": ["gradient_csmc/al_csmc_s.py:backward_sampling_pass", "gradient_csmc/atp_csmc_s.py:backward_sampling_pass"]}
{"id": "C28", "title": "Smoothing-gradient backward pass uses each particle's own predecessor", "statement": "In the backward pass of the smoothing-gradient kernels, the predecessor paired with particle i of generation t is that particle's recorded ancestor in generation t-1.", "quantifier": "every forward pass output, every time index and particle index", "why_tests_cant": "Misalignment by one generation changes only second-order terms, invisible to smoke tests.", "anchors": ["gradient_csmc/al_csmc_s.py:kernel", "gradient_csmc/atp_csmc_s.py:get_kernel"]}
{"id": "C29", "title": "Every conditional kernel inserts the reference trajectory", "statement": "In each specialised conditional kernel, the reference state at time t is present in generation t at the reference index, so that the kernel may return it.", "quantifier": "every execution of each specialised kernel", "why_tests_cant": "All executions.", "anchors": ["gradient_csmc/l_csmc_f.py:kernel", "gradient_csmc/al_csmc_s.py:kernel", "gradient_csmc/tp_csmc.py:get_kernel", "gradient_csmc/atp_csmc_s.py:get_kernel"]}
{"id": "C30", "title": "MALA / auxiliary-MALA single-trajectory kernels are reversible", "statement": "The multi-proposal MALA kernels leave the target invariant: the density of (current, proposals, selection) satisfies the exchange identity that makes the index selection a Gibbs (or forced-move) step on the extended target, for the auxiliary and marginal styles.", "quantifier": "every target, gradient, step size, number of proposals, dimension, every configuration", "why_tests_cant": "Equality over continuous state spaces.", "anchors": ["gradient_csmc/mala.py:kernel", "gradient_csmc/mala.py:get_log_H"]}
{"id": "C31", "title": "Gradient-informed prior kernels (tp) are reversible", "statement": "The TP (aGRAD/mGRAD on the whole trajectory) kernels accept with exactly the Metropolis-Hastings ratio of the auxiliary-augmented target against the Gaussian-posterior proposal.", "quantifier": "every target, gradient, prior, step size, every current and proposed state", "why_tests_cant": "Equality over continuous state spaces.", "anchors": ["gradient_csmc/tp.py:get_kernel"]}
{"id": "C32", "title": "Independent Metropolis-Hastings kernel", "statement": "The IMH kernel accepts with the Metropolis-Hastings probability for a prior-independent proposal, leaves the target invariant, and leaves the state unchanged when it rejects.", "quantifier": "every target, prior and state", "why_tests_cant": "Equality of laws.", "anchors": ["gradient_csmc/imh.py:get_kernel", "gradient_csmc/imh.py:prior_logpdf"]}
{"id": "C33", "title": "Cached values in sampler states are always coherent", "statement": "For the MALA, TP and IMH kernels, in every state reachable from the initial state by any number of kernel calls, the cached log-density and gradient are those of the stored position; a rejected step leaves the state unchanged.", "quantifier": "every history of kernel calls and random outcomes, every target", "why_tests_cant": "Invariant over all histories.", "anchors": ["gradient_csmc/mala.py:kernel", "gradient_csmc/tp.py:get_kernel", "gradient_csmc/imh.py:get_kernel"]}
{"id": "C34", "title": "Step-size adaptation keeps step sizes in the configured interval", "statement": "After any non-zero number of adaptation iterations every step size lies in [min_delta, max_delta], whatever the acceptance history.", "quantifier": "every history of acceptance indicators, every configuration with min_delta <= max_delta, every number of iterations", "why_tests_cant": "Invariant over all histories.", "anchors": ["gradient_csmc/utils/mcmc_utils.py:delta_adaptation_routine", "gradient_csmc/t_atp_csmc_f.py:delta_adaptation_routine", "gradient_csmc/tp.py:delta_adaptation_routine"]}
{"id": "C35", "title": "Step-size adaptation moves in the right direction and only when allowed", "statement": "A step size is changed only after the warm-up window and only when the windowed acceptance rate is outside the tolerance band; it increases (up to clipping) when acceptance is above the band and decreases when below; the windowed rate is the mean of the most recent indicators.", "quantifier": "every history of acceptance indicators, every configuration", "why_tests_cant": "Invariant over all histories.", "anchors": ["gradient_csmc/utils/mcmc_utils.py:delta_adaptation_routine"]}
{"id": "C36", "title": "The sampling driver records the chain it ran", "statement": "The driver returns, in order, the states visited by iterating the kernel, with every recorded statistic computed from consecutive visited states.", "quantifier": "every kernel, number of iterations, initial state", "why_tests_cant": "All histories and iteration counts.", "anchors": ["gradient_csmc/utils/mcmc_utils.py:sampling_routine"]}
{"id": "C37", "title": "The progress bar does not alter the loop and accounts for every iteration", "statement": "Wrapping a scan body with the progress bar leaves carry and outputs unchanged, and for every number of samples the total progress reported equals the number of samples.", "quantifier": "every number of iterations and every body function", "why_tests_cant": "All loop lengths, including non-multiples of the print rate and fewer than 20 iterations.", "anchors": ["gradient_csmc/utils/pbar.py:progress_bar_scan"]}
{"id": "C38", "title": "Kalman filter, sampler and smoother compute the Gaussian posterior", "statement": "For a linear-Gaussian chain, one predict/update step multiplies prior and likelihood exactly (log prior + log likelihood = log predictive evidence + log posterior for every state), and the backward sampler/smoother uses the exact conditional of x_t given x_{t+1} and the filter.", "quantifier": "every dimension, dynamics, covariance and observation", "why_tests_cant": "Identity over all real matrices.", "anchors": ["gradient_csmc/utils/kalman/filtering.py:sequential_update", "gradient_csmc/utils/kalman/filtering.py:sequential_predict", "gradient_csmc/utils/kalman/sampling.py:sampling", "gradient_csmc/utils/kalman/smoothing.py:smoothing"]}
{"id": "C39", "title": "Twisted kernel's reversed dynamics are the time reversal of the prior", "statement": "The backward dynamics built for the twisted kernel (t_atp_csmc_f) are the exact reversal of the prior chain: p(x_t) p(x_{t+1}|x_t) = p(x_{t+1}) q(x_t|x_{t+1}) for all states.", "quantifier": "every initial law, dynamics (F, Q, b), dimension, time and pair of states", "why_tests_cant": "Identity over all real matrices; the shipped example uses a symmetric model.", "anchors": ["gradient_csmc/t_atp_csmc_f.py:_get_reversed_dynamics", "gradient_csmc/t_atp_csmc_f.py:_get_gain"]}
{"id": "C40", "title": "All kernels of an experiment target the same posterior", "statement": "In each experiment the joint log-density used by the full-trajectory samplers equals, for every trajectory, the sum of the per-step log-potentials used by the cSMC kernels (up to a constant).", "quantifier": "every trajectory, observation sequence and model parameter", "why_tests_cant": "Identity for all trajectories and horizons.", "anchors": ["experiments/lgssm_scaling/model.py:log_pdf", "experiments/stochastic_volatility/model.py:log_pdf", "experiments/lgssm_scaling/kernels.py", "experiments/stochastic_volatility/kernels.py"]}
{"id": "C41", "title": "Stochastic-volatility dynamics are stationary", "statement": "The stochastic-volatility model's transition leaves its initial Gaussian law invariant: mean m0 satisfies F m0 + b = m0 and covariance P0 satisfies F P0 F^T + Q = P0.", "quantifier": "every dimension, every phi with |phi|<1, tau, rho, mu", "why_tests_cant": "Identity for all parameters.", "anchors": ["experiments/stochastic_volatility/model.py:get_dynamics", "experiments/stochastic_volatility/model.py:stationary_covariance"]}
{"id": "C42", "title": "Every launched experiment configuration is a supported one", "statement": "Every (kernel, style) pair produced by the distribution scripts is accepted by the kernel factory, and the array-job index range covers every configuration exactly once.", "quantifier": "every array-job index", "why_tests_cant": "A configuration error only surfaces when that index runs on the cluster.", "anchors": ["experiments/lgssm_scaling/distribute.py", "experiments/stochastic_volatility/distribute.py", "experiments/lgssm_scaling/kernels.py:KernelType", "experiments/stochastic_volatility/kernels.py:KernelType"]}
{"id": "C43", "title": "Particle-mGRAD leaves the posterior invariant", "statement": "One step of the tp_csmc kernel leaves the joint law of trajectory and indices (posterior times uniform) invariant, for the potentials prior + r; the correction in its weights is the density of the other particles with the auxiliary variable integrated out.", "quantifier": "every horizon, number of particles, prior, potentials, gradient functions, step sizes, resampling scheme and move meeting their contracts, backward on and off", "why_tests_cant": "Equality of laws; tests only compare moments with Monte Carlo error.", "anchors": ["gradient_csmc/tp_csmc.py:get_kernel", "gradient_csmc/tp_csmc.py:get_log_H_bis"]}
{"id": "C44", "title": "Particle-aGRAD (filtering) leaves the posterior invariant", "statement": "One step of the atp_csmc_f kernel leaves the joint law of trajectory and indices (posterior times uniform) invariant, for the potentials prior + r.", "quantifier": "every horizon, number of particles, prior covariance, potentials, gradient functions, step sizes, resampling scheme and move meeting their contracts, backward on and off", "why_tests_cant": "Equality of laws; tests only compare moments with Monte Carlo error.", "anchors": ["gradient_csmc/atp_csmc_f.py:get_kernel", "gradient_csmc/atp_csmc_f.py:make_proposal"]}
{"id": "C45", "title": "Twisted Particle-aGRAD proposes from the reversed chain's posterior and leaves the posterior invariant", "statement": "The proposals of t_atp_csmc_f multiply up to the density of the chain given all auxiliary variables, the potentials to the target times the densities of the auxiliary variables, and one step of the kernel leaves the joint law of trajectory and indices (posterior times uniform) invariant.", "quantifier": "every horizon, dimension, number of particles, prior chain, potentials, gradient functions, step sizes, resampling scheme and move meeting their contracts, backward on and off", "why_tests_cant": "Identity over all trajectories and real matrices, and equality of laws; tests only compare moments with Monte Carlo error on one stationary model.", "anchors": ["gradient_csmc/t_atp_csmc_f.py:get_kernel", "gradient_csmc/t_atp_csmc_f.py:make_proposal", "gradient_csmc/t_atp_csmc_f.py:Gamma_0", "gradient_csmc/t_atp_csmc_f.py:Gamma_t"]}
{"id": "C46", "title": "Smoothing-gradient kernels leave the smoothing target invariant", "statement": "Started from the joint target of the trajectory times the uniform law of the indices, one step of al_csmc_s.py or atp_csmc_s.py (gradient of the whole log-target) returns a pair with the same law; with the forced move up to the error of that move.", "quantifier": "every target, gradient functions, horizon T >= 2, number of particles, step sizes, resampling scheme and move meeting their contracts, backward on and off", "why_tests_cant": "Equality of laws for all models; Monte Carlo tests at one model and one horizon T >> 2 cannot see a wrong predecessor at time 1, nor a kernel that ignores its reference.", "anchors": ["gradient_csmc/al_csmc_s.py:kernel", "gradient_csmc/atp_csmc_s.py:get_kernel", "gradient_csmc/al_csmc_s.py:backward_sampling_pass"]}
{"id": "C47", "title": "The data generators simulate the models", "statement": "As a function of its standard normal noises, the generated data has the recursion of the model, and the joint log-density of the model at the generated states and observations is the log-density of the noises minus the log-Jacobian.", "quantifier": "every dimension, horizon, parameter and noise value", "why_tests_cant": "Tests could only compare moments; a wrong scale or index changes the law without failing anything.", "anchors": ["experiments/lgssm_scaling/model.py:get_data", "experiments/stochastic_volatility/model.py:get_data"]}
{"id": "C48", "title": "The experiments consume every random key at most once", "statement": "In every execution of a data generator and of a whole experiment (data, initial states, adaptation, burn-in and sampling chains) no two draws consume the same key and no consumed key is an ancestor of another.", "quantifier": "every execution, every number of repetitions and chains, every kernel that respects the same discipline", "why_tests_cant": "Key reuse is silent: outputs look random in any single run.", "anchors": ["experiments/lgssm_scaling/model.py:get_data", "experiments/stochastic_volatility/model.py:get_data", "experiments/lgssm_scaling/experiment.py:one_experiment", "experiments/stochastic_volatility/experiment.py:one_experiment"]}
{"id": "C49", "title": "The recorded energy is the log-density of the model", "statement": "The inverse factors returned by the stochastic volatility data generator are the inverses of the Cholesky factors of P0 and Q, and the energy recorded from them is the log-density of the model up to a constant.", "quantifier": "every dimension, horizon, covariance and trajectory", "why_tests_cant": "The energy is only looked at in a plot; a constant or a missing correlation is not visible there.", "anchors": ["experiments/stochastic_volatility/model.py:get_data", "experiments/stochastic_volatility/experiment.py:one_experiment"]}
{"id": "C50", "title": "The linear Gaussian experiment starts its chains from the posterior", "statement": "The initial trajectory of a chain is an exact draw from the posterior given the observations: an invertible map of the standard normal noises under which the posterior density is the density of the noises up to a constant.", "quantifier": "every dimension, horizon, variance, observation sequence and noise value", "why_tests_cant": "Tests compare moments for one model with Monte Carlo error.", "anchors": ["experiments/lgssm_scaling/experiment.py:one_experiment", "gradient_csmc/utils/kalman/sampling.py:sampling"]}
{"id": "C51", "title": "The proposals of the experiments are weighted with the density they are drawn from", "statement": "For the dynamics of each experiment, the log-density used in the weights for the bootstrap and for the preconditioned proposals is the log-density of the law the particles are drawn from, up to a constant.", "quantifier": "every dimension, parameter, step size, state and factorisation returned by the SVD", "why_tests_cant": "A wrong density biases the chain without failing a test; the tests use one diagonal covariance.", "anchors": ["experiments/lgssm_scaling/kernels.py", "experiments/stochastic_volatility/kernels.py", "gradient_csmc/atp_csmc_f.py:make_proposal"]}
{"id": "C52", "title": "Conditional SMC on continuous states keeps the joint density of path and particles", "statement": "Given all particles of a run of csmc.py with ancestor tracing, the joint density of (trajectory, indices, particles, ancestors) is the same for the returned path as for the reference path: summing over the reference's indices, the target times the density of the run times any test function of the output equals the same with the test function of the reference. With the forced move, up to the error of that move.", "quantifier": "every type of states, all particle values, every horizon, number of particles, target, proposal with densities alike in all particles, resampling scheme and move meeting their contracts", "why_tests_cant": "An identity between densities at every point; sampling a continuous law cannot check it.", "anchors": ["gradient_csmc/csmc.py:kernel", "gradient_csmc/csmc.py:forward_pass", "gradient_csmc/csmc.py:backward_scanning_pass"]}
{"id": "C53", "title": "Particle-RWM on R^d keeps the joint density of path, auxiliary variables and particles", "statement": "Given the auxiliary variables and all particles of a run of rw_csmc.py, target density of the path times the Gaussian densities of the auxiliary variables and of the other particles is preserved: the output path and indices have the same joint density as the reference, with ancestor tracing and with backward sampling.", "quantifier": "all real vectors, dimensions, horizons, numbers of particles, targets, step sizes; any resampling scheme and move meeting their contracts", "why_tests_cant": "An identity between densities at every point; sampling a continuous law cannot check it.", "anchors": ["gradient_csmc/rw_csmc.py:kernel", "gradient_csmc/csmc.py:backward_sampling_pass", "gradient_csmc/csmc.py:backward_scanning_pass"]}
{"id": "C54", "title": "Particle-aMALA on R^d keeps the joint density of path, auxiliary variables and particles", "statement": "Given the auxiliary variables and all particles of a run of al_csmc_f.py, target density of the path times N(u_t; x_t + delta_t/2 grad, ell_t/2 I) times the densities N(x_t^i; u_t, ell_t/2 I) of the other particles is preserved by the kernel, with ancestor tracing and with backward sampling, using the weights computed by the code.", "quantifier": "all real vectors, dimensions, horizons, numbers of particles, targets, gradient functions, step sizes; any resampling scheme and move meeting their contracts", "why_tests_cant": "An identity between densities at every point; sampling a continuous law cannot check it.", "anchors": ["gradient_csmc/al_csmc_f.py:kernel", "gradient_csmc/al_csmc_f.py:G_t_tilde", "gradient_csmc/al_csmc_f.py:Gamma_t_tilde"]}
{"id": "C55", "title": "Particle-MALA on R^d keeps the joint density of path and particles", "statement": "Given all particles of a run of l_csmc_f.py with ancestor tracing, target density of the path times the Gaussian density of the other particles with the auxiliary variables integrated out is preserved by the kernel, using the weights computed by the code (with backward sampling: when gradients do not depend on the previous state).", "quantifier": "all real vectors, dimensions, horizons, numbers of particles, targets, gradient functions, positive step sizes; any resampling scheme and move meeting their contracts; any translation-invariant integral", "why_tests_cant": "An identity between densities at every point; sampling a continuous law cannot check it.", "anchors": ["gradient_csmc/l_csmc_f.py:kernel", "gradient_csmc/l_csmc_f.py:H_phi"]}
{"id": "C56", "title": "Particle-mGRAD on R^d keeps the joint density of path and particles", "statement": "Given all particles of a run of tp_csmc.py with ancestor tracing, target density of the path (Gaussian transitions N(mut, Q_t) times exp(rt)) times the density of the other particles (Gaussian posteriors given u_t, with u_t ~ N(x_t + delta_t/2 grad, ell_t/2 I) integrated out) is preserved by the kernel, using the proposal parameters, corrections and Cholesky-based densities computed by the code.", "quantifier": "all real vectors, dimensions, horizons, numbers of particles, mean functions, potentials, gradient functions, step sizes, positive definite covariances with an exact SVD; any resampling scheme and move meeting their contracts; any translation-invariant positive integral", "why_tests_cant": "An identity between densities at every point; sampling a continuous law cannot check it.", "anchors": ["gradient_csmc/tp_csmc.py:get_kernel", "gradient_csmc/tp_csmc.py:kernel", "gradient_csmc/atp_csmc_f.py:make_proposal"]}
{"id": "C57", "title": "Particle-aGRAD on R^d keeps the joint density of path, auxiliary variables and particles", "statement": "Given the auxiliary variables and all particles of a run of atp_csmc_f.py with ancestor tracing, target density of the path times N(u_t; x_t + delta_t/2 grad, ell_t/2 I) times the densities of the other particles (Gaussian posteriors given u_t) is preserved by the kernel, using the densities evaluated by the code.", "quantifier": "all real vectors, dimensions, horizons, numbers of particles, mean functions, potentials, gradient functions, step sizes, positive definite covariances with an exact SVD; any resampling scheme and move meeting their contracts", "why_tests_cant": "An identity between densities at every point; sampling a continuous law cannot check it, and the tests use diagonal covariances.", "anchors": ["gradient_csmc/atp_csmc_f.py:get_kernel", "gradient_csmc/atp_csmc_f.py:kernel", "gradient_csmc/atp_csmc_f.py:make_proposal"]}
{"id": "C58", "title": "Twisted Particle-aGRAD on R^d keeps the joint density of path, auxiliary variables and particles", "statement": "Given the auxiliary variables and all particles of a run of t_atp_csmc_f.py with ancestor tracing, target density of the path (linear Gaussian prior times the potentials) times N(u_t; x_t + delta_t/2 grad, ell_t/2 I) times the densities of the other particles (the samplers of the code) is preserved by the kernel, using the potentials and proposal parameters computed by the code.", "quantifier": "all real vectors, dimensions, horizons, numbers of particles, linear Gaussian priors, potentials, gradient functions, step sizes; any resampling scheme and move meeting their contracts", "why_tests_cant": "An identity between densities at every point; sampling a continuous law cannot check it.", "anchors": ["gradient_csmc/t_atp_csmc_f.py:get_kernel", "gradient_csmc/t_atp_csmc_f.py:kernel", "gradient_csmc/t_atp_csmc_f.py:make_proposal", "gradient_csmc/t_atp_csmc_f.py:Gamma_t"]}
{"id": "C59", "title": "mala, tp and imh on R^d keep the joint density of state and proposals", "statement": "Given the current state and the proposals of one step of mala.py (auxiliary and marginal style), tp.py or imh.py, target density times the density of the other points (Gaussian around u with u ~ N(x + delta/2 grad, delta/2 I) for mala; the Kalman posterior sampler run on u for tp; the prior for imh) is preserved by the step, using the weights computed by the code; if the move is reversible, so is the step.", "quantifier": "all real vectors, dimensions, horizons, numbers of proposals, targets, gradient functions, positive step sizes, linear Gaussian priors with positive definite covariances; any move meeting its contract, and an error bound for force_move", "why_tests_cant": "An identity between densities at every point; sampling a continuous law cannot check it.", "anchors": ["gradient_csmc/mala.py:kernel", "gradient_csmc/mala.py:get_log_H", "gradient_csmc/tp.py:get_kernel", "gradient_csmc/tp.py:kernel", "gradient_csmc/imh.py:get_kernel", "gradient_csmc/imh.py:kernel"]}
{"id": "C60", "title": "The law of the new path does not depend on the indices of the reference nor on the key", "statement": "For csmc.py, rw_csmc.py, l_csmc_f.py and al_csmc_f.py the law of the returned trajectory is a function of the reference trajectory only: the positions of the reference among the particles, and the key, do not matter.", "quantifier": "all finite state spaces or finite groups, horizons, numbers of particles, potentials, gradient functions; any resampling scheme and move that treat indices alike up to rotation (multinomial, killing, barker_move, force_move do)", "why_tests_cant": "An equality of laws over all reference indices; a test sees one sample at a time.", "anchors": ["gradient_csmc/csmc.py:kernel", "gradient_csmc/rw_csmc.py:kernel", "gradient_csmc/l_csmc_f.py:kernel", "gradient_csmc/al_csmc_f.py:kernel", "gradient_csmc/utils/resamplings.py:killing"]}
{"id": "C61", "title": "The chain of paths converges to the target from every start", "statement": "With at least two particles and positive proposal laws, iterating csmc.py, rw_csmc.py, l_csmc_f.py or al_csmc_f.py from any reference trajectory and indices brings the mean of every bounded function geometrically close to its mean under the target, and averages along the chain converge in mean square at rate one over the number of samples; for force_move up to the bias left by its threshold.", "quantifier": "all finite state spaces or finite groups, starts, keys, bounded functions, horizons, numbers of particles >= 2, potentials, gradient functions", "why_tests_cant": "A statement about the limit of infinitely many iterations, from every start.", "anchors": ["gradient_csmc/csmc.py:kernel", "gradient_csmc/rw_csmc.py:kernel", "gradient_csmc/l_csmc_f.py:kernel", "gradient_csmc/al_csmc_f.py:kernel", "gradient_csmc/utils/common.py:force_move", "gradient_csmc/utils/common.py:barker_move"]}
{"id": "C62", "title": "Averages of the samples recorded by the sampling loop converge to the target mean", "statement": "For every kernel that settles (C61), the average of a bounded function over the trajectories recorded by the sampling loop of mcmc_utils.py, with any thinning, is close to the target mean: mean-square error of order one over the number of recorded samples, and in probability; without recording, the law of the last state converges geometrically.", "quantifier": "all keys, starts, numbers of steps, thinnings, bounded functions, kernels that settle", "why_tests_cant": "A law of large numbers over all run lengths and starts.", "anchors": ["gradient_csmc/utils/mcmc_utils.py:sampling_routine"]}
{"id": "C63", "title": "With a single time step the particle kernels are the single-state kernels", "statement": "For T = 1, al_csmc_f.py is mala.py with auxiliary variables, l_csmc_f.py is mala.py without, csmc.py is imh.py and atp_csmc_f.py is tp.py: the joint law of the new state and of the flag saying whether it moved is the same, for the same target, step size and number of proposals (README: Particle-MALA and Particle-aGRAD extend MALA and aGRAD).", "quantifier": "all finite groups (finite sets for csmc), states, reference indices, keys, targets, gradient functions, noises, numbers of particles, resampling schemes, both backward passes; every move that treats indices alike up to rotation", "why_tests_cant": "Equality of two laws produced by two different programs using different keys and index conventions; samples of the two never coincide.", "anchors": ["README.md:14", "gradient_csmc/al_csmc_f.py:kernel", "gradient_csmc/l_csmc_f.py:kernel", "gradient_csmc/csmc.py:kernel", "gradient_csmc/atp_csmc_f.py:kernel", "gradient_csmc/mala.py:kernel", "gradient_csmc/tp.py:kernel", "gradient_csmc/imh.py:kernel"]}
{"id": "C64", "title": "With univariate potentials the smoothing-gradient kernels are the filtering-gradient kernels", "statement": "If the potentials have no gradient with respect to the previous state, the law of trajectory and indices returned by al_csmc_s.py is the one of al_csmc_f.py, and atp_csmc_s.py recovers atp_csmc_f.py (README.md:39).", "quantifier": "all finite groups, references, keys, potentials, noises, proposals, horizons, numbers of particles, resampling schemes, moves, both backward passes", "why_tests_cant": "Equality of laws of two programs that consume randomness differently.", "anchors": ["README.md:39", "gradient_csmc/al_csmc_s.py:kernel", "gradient_csmc/atp_csmc_s.py:kernel", "gradient_csmc/al_csmc_f.py:kernel", "gradient_csmc/atp_csmc_f.py:kernel"]}
{"id": "C65", "title": "Particle-mGRAD interpolates between CSMC and Particle-MALA", "statement": "When the prior becomes flat (its covariances multiplied by numbers tending to infinity) the law of the trajectory and indices returned by tp_csmc.py tends to the one of l_csmc_f.py with the potentials as target, and that of atp_csmc_f.py to the one of al_csmc_f.py; when it becomes informative (the variances ell of the auxiliary variables multiplied by numbers tending to infinity, delta fixed) the law returned by tp_csmc.py, and by atp_csmc_f.py for diagonal covariances, tends to the one of csmc.py with the prior as proposal (README.md:14).", "quantifier": "all dimensions, horizons, numbers of particles, references, realisations of the normal draws, continuous dynamics, potentials and gradient functions, continuous bounded or unbounded observables, both backward passes; every resampling scheme and move that depend continuously on positive weights (multinomial, killing, barker_move do; force_move does not, because of its threshold)", "why_tests_cant": "A limit of laws of programs on real vectors; a test would see finitely many values of the scale and samples only.", "anchors": ["README.md:14", "gradient_csmc/tp_csmc.py:kernel", "gradient_csmc/tp_csmc.py:get_log_H_bis", "gradient_csmc/atp_csmc_f.py:kernel", "gradient_csmc/atp_csmc_f.py:make_proposal", "gradient_csmc/l_csmc_f.py:kernel", "gradient_csmc/al_csmc_f.py:kernel", "gradient_csmc/csmc.py:kernel"]}
{"id": "C66", "title": "With a vanishing prior covariance the proposals collapse on the mean of the prior", "statement": "When the prior covariance of a time step tends to 0, for any auxiliary variable and noise, the proposals of tp_csmc.py and atp_csmc_f.py tend to the mean of the prior, as draws from the prior do.", "quantifier": "all dimensions, covariances, eigenvectors, auxiliary variables, noises, sequences of scales tending to 0", "why_tests_cant": "A limit; the clip at 1e-15 is invisible in single precision and at usual scales.", "anchors": ["README.md:14", "gradient_csmc/atp_csmc_f.py:make_proposal", "gradient_csmc/atp_csmc_f.py:Mt_rvs"]}
{"id": "C67", "title": "Particle kernels forget their start, even with wrong weights", "statement": "For csmc.py, rw_csmc.py, l_csmc_f.py, al_csmc_f.py, tp_csmc.py, atp_csmc_f.py and t_atp_csmc_f.py with at least two particles, positive laws and exact reals, the laws of the trajectories after t calls from any two starts, with any keys and indices, differ by at most 2 c (1 - e)^t on functions bounded by c, whatever potentials, corrections and log-densities the weights use; for tp_csmc.py, atp_csmc_f.py and t_atp_csmc_f.py the law of the new trajectory does not depend on the indices of the reference nor on the key.", "quantifier": "all finite groups (finite sets for csmc), pairs of starts, keys, indices, bounded functions, horizons, numbers of particles >= 2, potentials, gradient functions, log-densities; any resampling scheme and move that treat indices alike up to rotation and leave the reference", "why_tests_cant": "A bound uniform in the start and in the number of iterations.", "anchors": ["gradient_csmc/csmc.py:kernel", "gradient_csmc/rw_csmc.py:kernel", "gradient_csmc/l_csmc_f.py:kernel", "gradient_csmc/al_csmc_f.py:kernel", "gradient_csmc/tp_csmc.py:kernel", "gradient_csmc/atp_csmc_f.py:kernel", "gradient_csmc/t_atp_csmc_f.py:kernel"]}
{"id": "C68", "title": "tp_csmc converges to the target from every start", "statement": "With at least two particles and positive laws, iterating tp_csmc.py from any reference trajectory and indices brings the mean of every bounded function geometrically close to its mean under the target, and averages along the chain converge in mean square; for force_move up to the bias left by its threshold.", "quantifier": "all finite groups, starts, keys, bounded functions, horizons, numbers of particles >= 2, priors, potentials, gradient functions, auxiliary noises", "why_tests_cant": "A statement about the limit of infinitely many iterations, from every start.", "anchors": ["gradient_csmc/tp_csmc.py:kernel", "gradient_csmc/tp_csmc.py:get_log_H_bis", "gradient_csmc/utils/common.py:force_move"]}
{"id": "C69", "title": "atp_csmc_f and t_atp_csmc_f converge to the target from every start", "statement": "With at least two particles and positive laws, iterating atp_csmc_f.py or t_atp_csmc_f.py from any reference trajectory and indices brings the mean of every bounded function geometrically close to its mean under the target, and averages along the chain converge in mean square; for force_move up to the bias left by its threshold.", "quantifier": "all finite groups, starts, keys, bounded functions, horizons, numbers of particles >= 2, priors, potentials, gradient functions, auxiliary noises", "why_tests_cant": "A statement about the limit of infinitely many iterations; with the density the code evaluates the chain converges, but elsewhere, so its trace looks healthy.", "anchors": ["gradient_csmc/atp_csmc_f.py:kernel", "gradient_csmc/atp_csmc_f.py:make_proposal", "gradient_csmc/t_atp_csmc_f.py:kernel"]}
{"id": "C70", "title": "mala, tp and imh converge to the target from every start", "statement": "With at least one proposal and positive laws, iterating mala.py (both styles), tp.py or imh.py from any position initialised by init forgets the start at a geometric rate, whatever the weights; with right weights the law of the position converges geometrically to the target and averages along the chain converge in mean square, up to the error left by the threshold of force_move.", "quantifier": "all finite groups (finite sets for imh), starts, keys, bounded functions, numbers of proposals >= 1, targets, gradient functions, noises; any move meeting its contract, and force_move", "why_tests_cant": "A statement about the limit of infinitely many iterations, from every start.", "anchors": ["gradient_csmc/mala.py:kernel", "gradient_csmc/tp.py:kernel", "gradient_csmc/imh.py:kernel", "gradient_csmc/utils/common.py:force_move"]}
{"id": "C71", "title": "Averages of the samples recorded by the sampling loop of tp.py converge to the target mean", "statement": "For every kernel that settles (C70), the average of a bounded function over the positions recorded by the sampling loop of tp.py, with any thinning, has a mean-square error of order one over the number of recorded samples; without recording, the law of the last position converges geometrically.", "quantifier": "all keys, starts, numbers of steps, thinnings, bounded functions, kernels that settle", "why_tests_cant": "A law of large numbers over all run lengths and starts.", "anchors": ["gradient_csmc/tp.py:sampling_routine"]}
{"id": "C72", "title": "Every draw of every kernel, loop and experiment is from a probability mass function", "statement": "On every execution of every kernel, sampling loop, adaptation loop, experiment and data generator, every law handed to a random draw is non-negative and sums to one, whatever the targets, gradients, corrections and lengths of the arguments; only the laws of the noises and proposals passed in have to be probability mass functions. This covers the weights after resampling, the backward weights, the final moves and the killing probabilities, conditional or not.", "quantifier": "all executions, keys, states (of any length), weights, targets, gradients, step sizes, numbers of particles and steps", "why_tests_cant": "A weight vector that fails to be a probability on some execution is silently accepted by the random generators; no test inspects every draw of every execution.", "anchors": ["gradient_csmc/csmc.py:kernel", "gradient_csmc/utils/resamplings.py:killing", "gradient_csmc/utils/common.py:force_move", "gradient_csmc/utils/mcmc_utils.py:delta_adaptation_routine", "experiments/stochastic_volatility/experiment.py:one_experiment"]}
{"id": "C73", "title": "The averages recorded by the whole stochastic volatility experiment converge to the target mean of their data", "statement": "For the whole experiment (K repetitions of: data, initial trajectory by an unconditional pass, adaptation of the step sizes from the accepted moves, M burn-in chains from the adapted state, M sampling chains), every chain of every repetition records all its steps, and the mean square of the difference between its average of a bounded function and the mean of that function under the target given by the data of its repetition is at most a constant over the number of steps plus the bias of the final move (none for Barker); one constant for all executions of the adaptation.", "quantifier": "all keys, numbers of repetitions, chains, burn-in, adaptation and sampling steps, bounded functions that may depend on the data, data generators, adaptation settings, targets; csmc, rw_csmc, l_csmc_f, al_csmc_f, tp_csmc, mala, tp", "why_tests_cant": "The step sizes are adapted at random from the past of the chain, so that no fixed kernel is run; a test sees a few adapted values and finite averages.", "anchors": ["experiments/stochastic_volatility/experiment.py:one_experiment", "gradient_csmc/utils/mcmc_utils.py:delta_adaptation_routine", "gradient_csmc/utils/mcmc_utils.py:sampling_routine", "gradient_csmc/csmc.py:kernel", "gradient_csmc/mala.py:kernel"]}
{"id": "C74", "title": "The scaling experiment records unbiased estimates of the mean squared jump of the kernel under the target", "statement": "In lgssm_scaling/experiment.py, a repetition depends on the others only through its key, and given its data the value recorded at every time has mean equal to the mean squared Euclidean jump of one kernel step started from the target with indices zero, and mean squared error equal to the variance of one jump over M. For a kernel that leaves the target invariant (Barker's move), that quantity is the sum over coordinates of twice the variance minus the lag-one autocovariance, and is at most four times the sum of the variances.", "quantifier": "all keys, numbers of repetitions K and chains M > 0, times, data generators, coordinates, targets, resamplers and final moves (Barker, forced); csmc, rw_csmc, l_csmc_f, al_csmc_f, tp_csmc", "why_tests_cant": "A test sees one noisy average; a wrong axis, a reused key or a biased start changes the mean or the variance of the estimate, not its type.", "anchors": ["experiments/lgssm_scaling/experiment.py:one_experiment", "experiments/lgssm_scaling/experiment.py:esjd", "experiments/lgssm_scaling/kernels.py:kernel_maker"]}
{"id": "C75", "title": "Recorded acceptance rates converge to the stationary acceptance probability", "statement": "For csmc, rw_csmc, l_csmc_f, al_csmc_f and tp_csmc, the law of one move (trajectory before, trajectory after, which indices changed) depends neither on the key nor on the values of the indices, and from every start the averages of bounded functions of the moves converge in mean square, at rate one over the number of moves, to their mean when the trajectory before follows the target. In particular the indicators of change recorded by the sampling loop have, at each time and for every thinning, an average that converges to the probability that one stationary step changes the index of that time.", "quantifier": "all keys, starts, indices, times, thinnings, numbers of steps, bounded functions of moves, targets, numbers of particles >= 2; any final move meeting its contract, and force_move with its bias", "why_tests_cant": "A law of large numbers over all run lengths and starts; the flags compare indices, whose values carry over from one step to the next, so that their law could depend on the whole past.", "anchors": ["gradient_csmc/utils/mcmc_utils.py:sampling_routine", "gradient_csmc/csmc.py:kernel", "gradient_csmc/rw_csmc.py:kernel", "gradient_csmc/l_csmc_f.py:kernel", "gradient_csmc/al_csmc_f.py:kernel", "gradient_csmc/tp_csmc.py:kernel"]}
{"id": "C76", "title": "The acceptance rates recorded by the loop of tp.py converge to the stationary acceptance probability", "statement": "For mala.py (both samplers), tp.py and imh.py, the law of one move (position before, position after, indicator returned) does not depend on the key, and from every start the averages of bounded functions of the moves converge in mean square, at rate one over the number of moves, to their mean when the position before follows the target. In particular the indicators recorded by the sampling loop of tp.py have, for every thinning, an average that converges to the probability that one stationary step returns a set indicator.", "quantifier": "all keys, starts, thinnings, numbers of steps, bounded functions of positions and indicators, targets, numbers of proposals >= 1; any final move meeting its contract, and force_move with its bias", "why_tests_cant": "A law of large numbers over all run lengths and starts; the number reported is what step sizes are tuned against, and a test sees only one noisy value of it.", "anchors": ["gradient_csmc/tp.py:sampling_routine", "gradient_csmc/mala.py:kernel", "gradient_csmc/tp.py:kernel", "gradient_csmc/imh.py:kernel"]}
{"id": "C77", "title": "The acceptance rates recorded by the whole stochastic volatility experiment converge to those of the adapted kernels", "statement": "In the whole experiment (data, initial trajectory, adaptation, burn-in, sampling; K repetitions of M chains), averages over any recorded chain of functions of its samples and of its indicators of acceptance converge in mean square to their mean over one stationary move of the kernel given by the data and by the adapted step sizes of the repetition, which are random. In particular the recorded acceptance rates final_pct, at every time, converge to the stationary acceptance probabilities of that kernel, with one rate for all executions.", "quantifier": "all keys, numbers of repetitions, chains, burn-in and sampling steps, data generators, adaptation configurations and statistics; any final move meeting its contract, and force_move with its bias; csmc, rw_csmc, l_csmc_f, al_csmc_f, tp_csmc, mala, tp", "why_tests_cant": "The kernel of the sampling phase is chosen at random by the adaptation, so that the number the rates converge to is itself random; a test sees one noisy value for one adapted kernel.", "anchors": ["experiments/stochastic_volatility/experiment.py:one_experiment", "gradient_csmc/utils/mcmc_utils.py:sampling_routine", "gradient_csmc/tp.py:sampling_routine"]}
{"id": "C78", "title": "The standard deviations recorded by the whole stochastic volatility experiment converge to those of the target", "statement": "For the experiment with any kernel for which the recorded averages converge (C73), the standard deviations jnp.std(samples, 0) recorded by any chain, of any bounded function of the samples, converge to the standard deviation under the target given by the data of the repetition: the mean fourth power of the difference is at most a constant over the number of steps plus terms of the bias of the final move; without bias they are consistent.", "quantifier": "all keys, repetitions, chains, numbers of steps, bounded functions; all kernels of C73", "why_tests_cant": "A limit over all run lengths, of a quantity that is not an average of a function of the samples; an estimator centred or normalised differently (ddof, axis) has the same shape.", "anchors": ["experiments/stochastic_volatility/experiment.py:one_experiment"]}
{"id": "C79", "title": "The autocorrelations of the energies are those of the estimator over several chains", "statement": "For two or more chains, cross_chains_autocorr returns the estimator 1 - (W - mean lagged covariance) / (pooled variance) with the between-chain correction, equal to 1 at lag 0, and NaN exactly when all samples are equal; at lag l it is at most n / (n - l) in absolute value (values above 1 occur). It does not change under permutations of the chains or affine maps of the samples. Chains stuck at different values have autocorrelation 1 at every lag. For a single chain it is NaN.", "quantifier": "all numbers of lags, samples and chains, all samples", "why_tests_cant": "The formula mixes biased and unbiased variances over two axes; wrong axes or normalisations give plausible numbers of the same shape.", "anchors": ["experiments/stochastic_volatility/results/results_analysis.py:cross_chains_autocorr"]}
{"id": "C80", "title": "The recorded effective sample sizes and autocorrelations mean what their names say", "statement": "The effective sample size recorded for one coordinate is, per chain, n over 1 plus twice the weighted sum of the autocorrelations before the first negative one, lies between n / (2 n - 1) and n, and does not change under affine maps; the recorded autocorrelation function is the mean over the chains of theirs. The array of shape (K, N_LAGS + 1, T, D) that stores it accepts it.", "quantifier": "all numbers of samples and chains, all samples", "why_tests_cant": "Bounds and invariances over all samples; that the results cannot be stored for 2 to 1000 samples is found only at the end of a run with that many samples.", "anchors": ["experiments/stochastic_volatility/experiment.py:one_experiment"]}
{"id": "C81", "title": "Every cell of the results tables holds the number its labels say", "statement": "Each table that results_analysis.py builds has one row for each label, and the row (experiment, chain, time, ...) of column (tau, name) holds the entry of the file of that tau and of the kernel and style the name stands for, with that experiment, chain, time, ...: step sizes, acceptance rates, trajectories, means and the ends of their confidence intervals, energies (negated, subsampled, axes exchanged), autocorrelations, and the least, median and greatest effective sample size over the components, also divided by the sampling time. The tables are built exactly when all files load and fit. Every name describes the library kernel that its kernel and style select; the groups of kernels plotted together are those of their names. Reading the written tables back gives the same tables.", "quantifier": "all numbers of experiments, chains, samples, times and components, subsampling steps, contents of the files", "why_tests_cant": "A flattened array written under labels in another order has the right shape, so that only a statement about all cells excludes it.", "anchors": ["experiments/stochastic_volatility/results/results_analysis.py:name_in_paper", "experiments/stochastic_volatility/results/results_analysis.py:energy_data_df", "experiments/stochastic_volatility/results/results_analysis.py:ess_df", "experiments/stochastic_volatility/results/results_analysis.py:name_to_kernel_style", "experiments/stochastic_volatility/experiment.py:one_experiment"]}
{"id": "C82", "title": "The tests of the final moves and of the reversed dynamics hold for all sizes and weights", "statement": "What the repository's tests compare on one input holds in general. With m equal weights the forced move never returns the index it started from and returns each other one with probability 1/(m-1), reporting acceptance 1, and the Barker move returns every index with probability 1/m, reporting (m-1)/m. With all weight on one index both moves return it with probability 1 and report 1 or 0 according to whether they started elsewhere. With two weights the forced move crosses with the Metropolis-Hastings probability min(1, (1-w_k)/w_k), which it also reports, and the Barker move crosses with probability w_l, which it reports. Reversing any number of steps of symmetric dynamics stationary for the standard normal law returns the same dynamics.", "quantifier": "all numbers of particles, starting indices, pairs of weights with the current one below 1 - 1e-12, dimensions, symmetric matrices and numbers of steps", "why_tests_cant": "The tests count 10^6 draws for 8 equal weights, one degenerate vector and (0.1, 0.9), within a tolerance of one percent, and reverse a single step of one chain.", "anchors": ["gradient_csmc/utils/common.py:force_move", "gradient_csmc/utils/common.py:barker_move", "gradient_csmc/utils/common.py:test_uniform", "gradient_csmc/utils/common.py:test_degenerate", "gradient_csmc/utils/common.py:test_two_samples", "gradient_csmc/t_atp_csmc_f.py:_get_reversed_dynamics"]}
{"id": "C83", "title": "_log_1_m_exp computes log(1 - exp(x))", "statement": "For an array of negative numbers, _log_1_m_exp returns the logarithms of 1 minus their exponentials.", "quantifier": "all sizes of arrays and all real entries", "why_tests_cant": "No test calls the function, and on an array whose greatest entry is 0 its values are right.", "anchors": ["gradient_csmc/utils/common.py:_log_1_m_exp"]}
{"id": "C84", "title": "The scaling experiment gives each kernel the step size of its dimension", "statement": "The step size of a run times the power of D, of T or of D T that --delta-arg asks for is --delta; without such an argument it is --delta; the computation fails exactly when that size is 0, and larger problems never get larger steps. In every grid of distribute.py with positive sizes each run selects a library kernel and gets a positive step size d with d^(1/scale) n = 1, n being D for kernels that move particles time by time and D T for those that move the whole path; it is an array over time exactly when the kernel indexes it by time. Kernels without gradients get the scale 1 only, and all kernels with gradients are run with the scale 1/3. Different runs of one grid write different files. --log-var is the logarithm in base 10 of the variance used.", "quantifier": "all sizes, step sizes, scales, grids and log-variances", "why_tests_cant": "A step size scaled by the wrong dimension gives a run that works and differs only in its rate of decay with the size.", "anchors": ["experiments/lgssm_scaling/experiment.py:DELTA", "experiments/lgssm_scaling/experiment.py:SIGMA", "experiments/lgssm_scaling/kernels.py:KernelType.shape_delta", "experiments/lgssm_scaling/distribute.py:combination_1", "experiments/lgssm_scaling/distribute.py:combination_2", "experiments/lgssm_scaling/distribute.py:combination_3"]}
{"id": "C85", "title": "prior_logpdf is the log-density of the chain that prior_sampling draws", "statement": "prior_logpdf of imh.py, given inverses of any factors of the covariances, equals the log-density of the Gaussian chain up to the normalising constant, and at the trajectory that prior_sampling makes of given noises it equals minus half the squared norm of the noises.", "quantifier": "for all dimensions, lengths, means, transition matrices, offsets, covariances, factors and trajectories", "why_tests_cant": "No test calls prior_logpdf, and a test would compare it with one other implementation at one point; the claim covers every model, every factor and every trajectory.", "anchors": ["gradient_csmc/imh.py:prior_logpdf", "gradient_csmc/utils/kalman/sampling.py:prior_sampling"]}
{"id": "C86", "title": "Conditional SMC on targets with zeros never meets undefined weights", "statement": "When potentials and proposal densities may be 0 (log-densities equal to -inf, as with truncated or constrained states), and the proposals reach every state where the potential is not 0: started from a reference where the target is positive, csmc.kernel never has to resample, trace back or move with weights that are NaN, in any number of iterations and with both backward passes; its result is again a trajectory where the target is positive; and the kernel leaves the target invariant. When all log-densities are finite the kernel is the one without zeros.", "quantifier": "all finite state spaces, numbers of particles, lengths, potentials and proposal densities that may vanish, references where the target is positive, resampling schemes and final moves of the code, both backward passes, all numbers of iterations", "why_tests_cant": "The repository has no target with zeros, and whether -inf minus -inf is met depends on which particles are drawn: a run that never meets it shows nothing about the draws that were not made.", "anchors": ["gradient_csmc/csmc.py:kernel", "gradient_csmc/csmc.py:forward_pass", "gradient_csmc/csmc.py:backward_sampling_pass", "gradient_csmc/csmc.py:backward_scanning_pass", "gradient_csmc/utils/resamplings.py:normalize", "gradient_csmc/utils/common.py:force_move"]}
{"id": "C87", "title": "Random-walk conditional SMC on targets with zeros never meets undefined weights", "statement": "When the potentials may be 0 (log-potentials equal to -inf): started from a reference where the target is positive, rw_csmc.kernel with a resampling scheme and a final move that meet their contracts never has to use weights that are NaN, in any number of iterations and with both backward passes; its result is again a trajectory where the target is positive; and the kernel leaves the target invariant. When all log-potentials are finite the kernel is the one without zeros.", "quantifier": "all finite abelian groups of states, numbers of particles, lengths, step sizes, even and positive noise laws, potentials that may vanish, references where the target is positive, resampling schemes and final moves that meet their contracts, both backward passes, all numbers of iterations", "why_tests_cant": "The repository has no target with zeros, and a random walk leaves the support with a probability that depends on the draws: a run that never meets -inf minus -inf shows nothing about the draws that were not made. The initial log-weights are kept minus their maximum and not normalised, a difference from csmc.py that shows only in the backward weights of time 0.", "anchors": ["gradient_csmc/rw_csmc.py:kernel", "gradient_csmc/csmc.py:backward_sampling_pass", "gradient_csmc/csmc.py:backward_scanning_pass", "gradient_csmc/utils/resamplings.py:normalize"]}
{"id": "C88", "title": "The smoothing-gradient kernel keeps the joint density on R^d, given all particles", "statement": "For al_csmc_s.py with states in R^d: given all particles and auxiliary variables, let the reference indices have the law proportional to the joint density of the target at the selected particles, of the Gaussian auxiliary variables centred a full-gradient step from the trajectory, and of the other particles given the auxiliary variables. Then the trajectory and indices that the sweep returns have that law again; with the forced move up to the error of that move.", "quantifier": "every dimension, number of particles, horizon T >= 2, log-potentials, gradient functions, step sizes, auxiliary variables, particles, resampling scheme and move meeting their contracts, backward on and off", "why_tests_cant": "An identity for all particles and all models on a continuous space; the Monte Carlo tests compare moments for one Gaussian model within a tolerance.", "anchors": ["gradient_csmc/al_csmc_s.py:kernel", "gradient_csmc/al_csmc_s.py:backward_sampling_pass", "gradient_csmc/csmc.py:backward_scanning_pass"]}
{"id": "C89", "title": "Independent Metropolis-Hastings on targets with zeros never meets undefined weights", "statement": "When the likelihood may be 0 (log_pdf equal to -inf): started from a trajectory of positive likelihood, imh.py never has to select with weights that are NaN, in any number of iterations; one step leaves prior times likelihood invariant, up to the error of the forced move, and returns the log-likelihood of the trajectory it returns. When all log-likelihoods are finite the kernel is the one without zeros.", "quantifier": "all finite state spaces, priors, likelihoods that may vanish, numbers of proposals, starting points of positive likelihood, numbers of iterations", "why_tests_cant": "The repository has no likelihood with zeros; the move to a state of likelihood 0 has a probability below 1e-12 for each step and is followed by an undefined result only when all later proposals miss the support too.", "anchors": ["gradient_csmc/imh.py:get_kernel", "gradient_csmc/imh.py:init", "gradient_csmc/utils/common.py:force_move"]}
{"id": "C90", "title": "Particle MALA and its twisted variant on targets with zeros never meet undefined weights", "statement": "When log_pdf may be -inf: started from a state of positive density, mala.py in both styles and tp.py never have to select with weights that are NaN, in any number of iterations; one step leaves the target invariant, up to the error of the forced move, and returns the value and the gradient of the state it returns. When all values are finite the kernels are the ones without zeros.", "quantifier": "all finite abelian groups of states, densities that may vanish, gradient functions, noise laws, step sizes, numbers of proposals, starting points of positive density, numbers of iterations", "why_tests_cant": "The repository has no target with zeros. Whether a gradient is defined where the density is 0 depends on how the target is written, and the kernels use the gradients of all proposals, also of those that can never be selected; a run shows this only if a proposal falls there.", "anchors": ["gradient_csmc/mala.py:kernel", "gradient_csmc/tp.py:get_kernel", "gradient_csmc/tp.py:init", "gradient_csmc/utils/common.py:force_move"]}
{"id": "C91", "title": "Particle-aMALA on targets with zeros never meets undefined weights", "statement": "When the potentials may be 0 (log-potentials equal to -inf) and their gradients are defined at all states: started from a reference where the target is positive, al_csmc_f.kernel with a resampling scheme and a final move that meet their contracts never has to use weights that are NaN, in any number of iterations and with both backward passes; its result is again a trajectory where the target is positive; and the kernel leaves the target invariant. One state where the gradient of Gamma_0 is undefined, even if the target is 0 there, gives a run without result with positive probability. So does one where the gradient of Gamma_t is undefined from all previous states, at any later time. When all log-potentials are finite the kernel is the one without zeros.", "quantifier": "all finite abelian groups of states, numbers of particles, lengths, step sizes, positive noise laws, potentials that may vanish, gradient functions, references where the target is positive, resampling schemes and final moves that meet their contracts, both backward passes, all numbers of iterations", "why_tests_cant": "The repository has no target with zeros, and whether -inf minus -inf is met depends on the draws. The gradients of all particles enter the weights, also of those that can never be selected, so a gradient that is undefined outside the support shows only in runs where a particle falls there.", "anchors": ["gradient_csmc/al_csmc_f.py:kernel", "gradient_csmc/csmc.py:backward_sampling_pass", "gradient_csmc/csmc.py:backward_scanning_pass", "gradient_csmc/utils/resamplings.py:normalize"]}
{"id": "C92", "title": "The marginalised Langevin kernel on targets with zeros never meets undefined weights", "statement": "When the potentials may be 0 (log-potentials equal to -inf) and their gradients are defined at all states: started from a reference where the target is positive, l_csmc_f.kernel with a resampling scheme and a final move that meet their contracts never has to use weights that are NaN, in any number of iterations and with both backward passes; its result is again a trajectory where the target is positive; and the kernel leaves the target invariant. One state where the gradient of Gamma_0 is undefined, even if the target is 0 there, gives a run without result with positive probability. So does one where the gradient of Gamma_t is undefined from all previous states, at any later time. When all log-potentials are finite the kernel is the one without zeros.", "quantifier": "all finite abelian groups of states, numbers of particles, lengths, step sizes, noise laws, corrections equal to the marginal density of the other particles up to a common factor, potentials that may vanish, gradient functions, references where the target is positive, resampling schemes and final moves that meet their contracts, both backward passes, all numbers of iterations", "why_tests_cant": "The repository has no target with zeros. The correction of a particle depends on all others, so a particle of weight zero still enters the weights of the rest; whether the result stays distributed as the target is a statement about sums over all executions.", "anchors": ["gradient_csmc/l_csmc_f.py:kernel", "gradient_csmc/csmc.py:backward_sampling_pass", "gradient_csmc/csmc.py:backward_scanning_pass", "gradient_csmc/utils/resamplings.py:normalize"]}
{"id": "C93", "title": "csmc.py never meets undefined weights on targets with zeros, whatever its proposal densities; nor do the kernels with a Gaussian prior", "statement": "When the potentials may be 0 (log-potentials equal to -inf): started from a reference where the target is positive, csmc.kernel with any samplers, any real numbers as their log-densities, right or wrong, and a resampling scheme and a final move that meet their contracts never has to use weights that are NaN, with both backward passes, and its result is again a trajectory where the target is positive. So for atp_csmc_f.kernel and tp_csmc.kernel in any number of iterations when the gradients of r0 and rt are defined at all states. One state where the gradient of r0, or that of rt from all previous states, is undefined, even if the target is 0 there, gives a run without result with positive probability. When all log-potentials are finite the kernels are the ones without zeros.", "quantifier": "all state spaces (finite abelian groups for atp_csmc_f and tp_csmc), numbers of particles, lengths, samplers, log-densities with real values, corrections, potentials that may vanish, gradient functions, references where the target is positive, resampling schemes and final moves that meet their contracts, both backward passes, all numbers of iterations", "why_tests_cant": "The repository has no target with zeros. The claim does not follow from invariance: the proposal log-density of atp_csmc_f.py is wrong for covariances that are not diagonal (C25), and that the support is kept nevertheless is a statement about every execution of positive probability.", "anchors": ["gradient_csmc/csmc.py:kernel", "gradient_csmc/csmc.py:forward_pass", "gradient_csmc/csmc.py:backward_sampling_pass", "gradient_csmc/csmc.py:backward_scanning_pass", "gradient_csmc/atp_csmc_f.py:kernel", "gradient_csmc/tp_csmc.py:kernel"]}
{"id": "C94", "title": "The kernels with a Gaussian prior leave targets with zeros invariant", "statement": "When the potentials r0 and rt may be -inf and their gradients are defined at all states: started from the target, tp_csmc.kernel and atp_csmc_f.kernel have a result almost surely and it is distributed as the target, with both backward passes.", "quantifier": "all finite abelian groups of states, numbers of particles, lengths, parameters, noise laws, corrections equal to the marginal density of the other particles up to a common factor (tp_csmc), proposal log-densities right up to a constant (atp_csmc_f), potentials that may vanish, gradient functions, resampling schemes and final moves that meet their contracts, both backward passes", "why_tests_cant": "The repository has no target with zeros, and invariance is an equation between sums over all executions.", "anchors": ["gradient_csmc/tp_csmc.py:kernel", "gradient_csmc/atp_csmc_f.py:kernel", "gradient_csmc/csmc.py:kernel"]}
{"id": "C95", "title": "t_atp_csmc_f.py never meets undefined weights on targets with zeros, whatever its proposals", "statement": "When the potentials r0 and rt may be 0 (log-potentials equal to -inf) and their gradients are defined at all states: started from a reference where the target is positive, t_atp_csmc_f.kernel never has to use weights that are NaN, with both backward passes and in any number of iterations, and its result is again a trajectory where the target is positive, whatever proposals the filter computes. One state where the gradient of r0, or that of rt from all previous states, is undefined gives a run without result with positive probability. When all log-potentials are finite the kernel is the one without zeros.", "quantifier": "all finite abelian groups of states, numbers of particles, lengths, functions computing the proposals, log-densities with real values, potentials that may vanish, gradient functions, references where the target is positive, resampling schemes and final moves that meet their contracts, both backward passes, all numbers of iterations", "why_tests_cant": "The repository has no target with zeros. The reversed dynamics of the code are not those of the prior (C39), so the claim does not follow from invariance; it is about every execution of positive probability.", "anchors": ["gradient_csmc/t_atp_csmc_f.py:get_kernel", "gradient_csmc/t_atp_csmc_f.py:Gamma_0", "gradient_csmc/t_atp_csmc_f.py:Gamma_t", "gradient_csmc/csmc.py:kernel"]}
{"id": "C96", "title": "t_atp_csmc_f.py leaves targets with zeros invariant", "statement": "When the potentials r0 and rt may be -inf and their gradients are defined at all states: started from the target, t_atp_csmc_f.kernel has a result almost surely and it is distributed as the target, with both backward passes.", "quantifier": "all finite abelian groups of states, numbers of particles, lengths, noise laws, proposals that together are the prior times the densities of the auxiliary variables up to a constant, potentials that may vanish, gradient functions, resampling schemes and final moves that meet their contracts, both backward passes", "why_tests_cant": "The repository has no target with zeros, and invariance is an equation between sums over all executions.", "anchors": ["gradient_csmc/t_atp_csmc_f.py:get_kernel", "gradient_csmc/csmc.py:kernel"]}
