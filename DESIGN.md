# Design of the formal model of particle_mala

The code modelled is in `/repo` (Python/JAX).  The model and the proofs are in
`/verif/rocq/theories` (Rocq/Coq 8.16.1, logical name `Verif`).

Contents: 1. how the code is modelled; 2. plan per property; 3. files; 4. what is
modelled and what is not; 5. where the code does not have the property; 6. trusted
base; 7. seeded faults.

## 1. How the code is modelled

* **Scalars.** A JAX float is an exact real number (`R` of Coq's standard
  library).  Rounding, overflow and NaN are not modelled, except for the NaN
  guard of `rw_csmc.kernel` (C18), where a value is either finite or not, and the
  NaN entries of the acceptance histories (C34, C35), which are `None`.
* **Arrays of particles.** An array of `N+1` particles is a finite function
  `{ffun 'I_n -> X}` with `n = N+1`.  Indices are ordinals `'I_n`, so an
  out-of-range index cannot be written.  The time dimension is a list, and
  `jax.lax.scan` is structural recursion on the list of inputs.
* **Randomness.** A random function is a tree `prog A`.  Each node `Draw k B p f`
  is one call `jax.random.*(key=k, ...)` whose outcome lies in the finite type
  `B` with mass function `p`.  The tree has three readings: its expectation
  `E m f`, the set of its executions (`always`, `almost`), and the keys consumed on
  each execution (`runs`).  A uniform that is only compared with a threshold
  (`uniform(k) * a < b`) is a Bernoulli draw with the exact probability of that
  event.
* **PRNG keys.** A key is a path in the tree of splits: `split(key, n)[i]` is
  `rcons key i`.  Two splits of the same key share their children, which is the
  pessimistic reading.
* **State spaces in invariance theorems.** States are elements of an arbitrary finite type
  (csmc, imh) or of an arbitrary finite abelian group (kernels that add noise to
  states), and sums replace integrals.  Contracts of samplers are stated as "the
  law of the sampler is proportional to exp of the log-density the code evaluates".
  This is the main simplification of the development.
* **Continuous states.** C52-C59 remove that simplification for `csmc`, `rw_csmc`, `al_csmc_f`, `l_csmc_f`, `tp_csmc`, `atp_csmc_f`, `t_atp_csmc_f`, `mala`, `tp` and `imh`.
  States are of any type (real vectors except for `csmc`).  All particles and auxiliary variables are given,
  and sums run over the indices of the reference only.  The theorems say that target times densities is
  preserved at every point, which gives invariance after integrating over the points.  A sampler call is
  then `observed`: a node whose weight is the density of its outcome.
* **Gaussian formulas** are treated at full generality on real vectors of any
  dimension, as identities between log-densities (up to constants where the code drops
  them) or as statements about the unique mean and covariance of an affine image of
  standard normal noises.  Where an integral over an auxiliary variable is unavoidable
  (C21, C22, C43, C55, C56, C59), it is any homogeneous translation-invariant functional, and
  a second theorem gives the completed square with no integral at all.  `Integral.v` defines such a
  functional in every dimension (increase of a primitive, iterated over the coordinates) and proves
  it positive on Gaussian densities, so the hypothesis is met.
* **Gradients** given by `jax.grad` are arbitrary functions in the invariance
  theorems (which hold for any function).  C26 compares the full gradient with
  directional derivatives.
* **Linear algebra.** `jnp.linalg.cholesky` is the textbook recursion, proved to
  give the only lower triangular factor with positive diagonal;
  `solve_triangular(L, B, lower=True)` reads the lower triangle only;
  `solve(A, B, assume_a="pos")` is `invmx A *m B` where `A` is symmetric, and reads the
  upper triangle only where it is not (C49); `jnp.linalg.svd(Q, hermitian=True)` is
  any factorisation with the specified properties.
* **Exceptions and shape errors** are values (`option`) or shapes (list lengths).

## 2. Plan per property

| Id | What is modelled | How it is proved |
|----|------------------|------------------|
| C01 | `normalize` with `logsumexp` | real analysis on finite sums of `exp` |
| C02 | `multinomial` as draws from a product law | finite sums, splitting coordinate j |
| C03 | `killing`, conditional branch with random rotation | explicit rotated law; finite sums, case split on the rotated position |
| C04 | `killing`, unconditional branch | finite sums |
| C05 | both schemes | every branch of the tree |
| C06 | `barker_move` | direct computation of the law |
| C07 | `force_move`, including the threshold branch | detailed balance below the threshold; refutation witness in the threshold branch; quantitative bound there |
| C08 | `force_move` | inequality on the explicit law |
| C09 | `force_move` second output | refutation with a witness; exact cases |
| C10 | `kernel`, `forward_pass`, `backward_scanning_pass` | change of measure by induction over time |
| C11 | `backward_sampling_pass` | partially collapsed Gibbs: induction over the horizon with a tilt function |
| C12, C13 | same | invariants over every branch of the tree |
| C14 | same | corollary of C12 and C13 |
| C15 | `kernel` with `conditional=False` | equality of programs for `backward=True`; refutation witness for `backward=False` with the forced move |
| C16 | key usage of every kernel | antichain property of consumed keys by induction |
| C17 | `rw_csmc.kernel` | C10/C11 for each auxiliary sequence, then average |
| C18 | `rw_csmc.kernel` guard | every branch |
| C19 | `al_csmc_f` kernel | C10/C11 on the augmented target |
| C20 | `l_csmc_f` kernel | generic step condition of C10/C11 |
| C21 | `H_phi` of `l_csmc_f` | completing the square |
| C22 | `get_log_H` | Woodbury identity, finite sums of matrices |
| C23 | `get_log_H_bis`, scalar `get_log_H` | specialisation |
| C24 | `utils/math.py` | triangular solve as multiplication by the inverse |
| C25 | `atp_csmc_f` proposal | positive part: mean/covariance; refutation: transposed inverse factor |
| C26 | `al_csmc_s` potentials | telescoping sums |
| C27 | index arithmetic of the backward pass | list lengths; refutation at T = 2 |
| C28 | predecessor arrays | refutation with a concrete run |
| C29 | forward passes of specialised kernels | every branch; refutation for `atp_csmc_s` |
| C30 | `mala` kernels | exchange identity of extended densities |
| C31 | `tp` kernels | acceptance ratio identity |
| C32 | `imh` kernel | Metropolis-Hastings on a finite state space |
| C33 | states of `mala`, `tp`, `imh` | invariant over histories |
| C34, C35 | `delta_adaptation_routine` | invariant over histories |
| C36 | `sampling_routine` | refinement to iteration of the kernel |
| C37 | `progress_bar_scan` | arithmetic on counts; identity on results |
| C38 | Kalman `filtering`, `sampling`, `smoothing` | completing the square with block inverses |
| C39 | `_get_reversed_dynamics` | positive part under symmetry; refutation in general |
| C40 | experiment models | sums over time; refutation for stochastic volatility with non-zero offset |
| C41 | `get_dynamics`, `stationary_covariance` | covariance identity; refutation for the mean |
| C42 | experiment grids | finite enumeration; refutation for stochastic volatility |
| C43, C44 | `tp_csmc`, `atp_csmc_f` kernels | C10/C11 with proposals that depend on auxiliary variables; marginal correction for `tp_csmc` |
| C45 | `t_atp_csmc_f` | backward recursion of conditional densities of a Gaussian chain; C10/C11 given all auxiliary variables |
| C46 | `al_csmc_s`, `atp_csmc_s` kernels | steps that depend on two ancestors (`PathTheory.v`); refutation witnesses |
| C47 | `get_data` of both experiments | change of variables from noises to data |
| C48 | data generators, experiment loops | antichain property of consumed keys; refutation for lgssm |
| C49 | inverse factors of `get_data`, recorded energy | exact characterisation; refutation at the parameters of the experiment |
| C50 | initial trajectories of the lgssm experiment | C38 |
| C51 | proposals of the experiments | C24, C25 |
| C52-C55 | `csmc`, `rw_csmc`, `al_csmc_f`, `l_csmc_f` on real vectors | the argument of C10 with all particles frozen (`FrozenTheory.v`): sums over indices only; C21 for the correction of `l_csmc_f` |
| C56-C57 | `tp_csmc`, `atp_csmc_f` on real vectors | C52 with the Gaussian formulas of C22-C24; the converse for `atp_csmc_f` by evaluating C52 at two particles |
| C58 | `t_atp_csmc_f` on real vectors | C52, with the potentials of C45 multiplying up to the target up to a constant |
| C59 | `mala`, `tp`, `imh` on real vectors | the argument of C30-C32 with all points frozen: a sum over the index of the current state; C22 for the marginal weights, C38 for the Kalman sampler |
| C60 | `csmc`, `rw_csmc`, `l_csmc_f`, `al_csmc_f`: indices of the reference | the passes commute with rotations of each generation (`ShiftTheory.v`), so the law is the one with all indices zero |
| C61 | the same, iterated | every path is reachable in one call, so the chain of paths satisfies Doeblin's condition (`ErgodicTheory.v`); C10, C17-C20 give the limit |
| C62 | `mcmc_utils.py` sampling loop around them | C36 and C61; the mean square is bounded by conditioning on the first sample |
| C63 | `al_csmc_f`, `l_csmc_f`, `csmc`, `atp_csmc_f` with T = 1 against `mala`, `imh`, `tp` | rotate the particles so that the reference is the first one; weights agree up to a constant |
| C64 | `al_csmc_s`, `atp_csmc_s` with univariate potentials | the two-step backward pass reads the same weights up to a constant (`Univariate.v`); refutation for `atp_csmc_s` by C44 and C46 |
| C65 | `tp_csmc`, `atp_csmc_f` against `l_csmc_f`, `al_csmc_f`, `csmc` | convergence of programs is stable under `bind` and scans (`LimitTheory.v`, `LimitCsmc.v`); limits of gain, factor, correction from the spectral form (`LimitStep.v`) |
| C66 | the clip of `make_proposal` | the exact limit of a proposal, with a non-zero noise as witness |
| C67 | all particle kernels with the reference inserted | Doeblin condition on the chain of trajectories; auxiliary variables drawn first (`ErgodicTp.v`) |
| C68 | `tp_csmc` | C67 and C43 |
| C69 | `atp_csmc_f`, `t_atp_csmc_f` | C67, C44 and C45; limits are unique, and a wrong density has another limit |
| C70 | `mala`, `tp`, `imh` | a position is a trajectory of one state; Doeblin condition (`ErgodicSingle.v`), C30-C32 for the limit |
| C71 | sampling loop of `tp.py` | C36 and C70 |
| C72 | all programs | `proper` goes through every `bind`; the weights of every draw are normalised or come from a contract |
| C73 | `stochastic_volatility/experiment.py` | executions of the adaptation are finite in number, so a rate for each adapted step size gives one rate (`uniform_rate`); C64, C67, C68, C70, C72 |
| C74 | `lgssm_scaling/experiment.py` (ESJD) | linearity of `E`, pairwise independence of the starts, keys and indices do not change the law of a step (C60); expansion of the square and invariance (C10, C11, C17, C19, C20, C43) |
| C75 | acceptance rates recorded by the sampling loop | rotating the indices rotates the outcome, so which indices change does not depend on them (ShiftTheory); the moves form a finite chain whose means are those of C61 one step earlier |
| C76 | acceptance rates recorded by the loop of `tp.py` | a position is a trajectory of one state and an indicator the change of an index among two, so C75's argument applies; joint laws of position and indicator (`mala_joint`, `tp1_joint`, `imh_joint`) |
| C77 | acceptance rates recorded by `stochastic_volatility/experiment.py` | the records of C73 seen through their moves (`viewed`); C75 and C76 give a rate for each adapted step size, `uniform_rate` one for all |
| C78 | `jnp.std` of the recorded samples | variances are means of squares minus squared means (C73 for f and its square); the square root is Hölder |
| C79 | `cross_chains_autocorr` of `results_analysis.py` | pooled variance and lagged covariances by sums; Cauchy-Schwarz for the bound (`DiagnosticsProofs.v`) |
| C80 | effective sample size, autocorrelations and their arrays in `experiment.py` | same sums; the mask keeps autocorrelations before the first negative one, which bounds the size; witness of an array that does not fit |
| C81 | tables of `results_analysis.py` | flattening against a product of index ranges, axis by axis (`zip_product`); medians by sorting; names by cases (`TablesProofs.v`) |
| C82 | what the tests of `common.py` and `t_atp_csmc_f.py` sample or compute | the laws of C07 at these weights; induction on the steps reversed (`MoveTests.v`) |
| C83 | `common._log_1_m_exp` | exponential laws; witness with one entry (`StepSizesProofs.v`) |
| C84 | step sizes and grids of `lgssm_scaling` | powers of reals; the 20 rows by computation, lifted to all sizes (`StepSizesProofs.v`) |
| C85 | `imh.prior_logpdf` against `prior_sampling` | sum over time of the density of one Gaussian step; the noise is the residual in the factor (`PriorLogpdfProofs.v`) |
| C86 | `csmc.py` with log-densities that may be -inf | IEEE values without rounding, runs without result; change of measure along the forward pass, outcomes of mass 0 are dropped (`NanTheory.v`), link to the code in `NanProofs.v`, `NanFinal.v`, finite case in `NanAgree.v` |
| C87 | `rw_csmc.py` with log-potentials that may be -inf | given the auxiliary variables the sweep has the law of `csmc.py` for the potential times the density of the auxiliary variable (`NanRwProofs.v`), then C86 and a sum over the auxiliary variables |
| C88 | `al_csmc_s.py` on R^d, given all particles | potentials with two predecessors made into steps on pairs, weights of frozen particles (`FrozenPath.v`), backward pass and telescoping shared with C46 (`SmoothBack.v`), link to densities in `DensitySmooth*.v` |
| C89 | `imh.py` with log-likelihoods that may be -inf | numbers of C86; exchangeability of the current state and the proposals as in C32, with weights that may vanish (`NanImhProofs.v`) |
| C90 | `mala.py` and `tp.py` with log-densities that may be -inf and gradients that may be undefined | numbers of C86; exchangeability with weights that may vanish, for the auxiliary, marginal and posterior corrections (`NanSingleProofs.v`), iterations (`NanSingleRuns.v`), undefined gradients and the finite case (`NanSingleFail.v`), forced move (`NanSingleForce.v`) |
| C91 | `al_csmc_f.py` with log-potentials that may be -inf and gradients that may be undefined | as C87, with the density of the auxiliary variable centred a gradient step from the state; the stored log-weights are those of `csmc.py` up to a constant at every time (`NanAlProofs.v`); undefined gradients at later times: `NanLaterAux.v` |
| C92 | `l_csmc_f.py` with log-potentials that may be -inf and gradients that may be undefined | change of measure of C86 with the auxiliary variable summed out in each step, as in C20 (`NanLProofs.v`); undefined gradients at later times: `NanLaterAux.v` |
| C93 | `csmc.py` with any samplers and log-densities, `atp_csmc_f.py` and `tp_csmc.py`, log-potentials that may be -inf | support of every execution followed forward and backward (`NanSafe.v`): a particle of positive weight has an ancestor of positive weight; no densities needed |
| C94 | the last two: invariance | tp: change of measure of C86 with the auxiliary variable summed out in each step (`NanTpProofs.v`); atp: C86 given the auxiliary variables, summed over them (`NanAtpProofs.v`) |
| C95 | `t_atp_csmc_f.py`, log-potentials that may be -inf | `NanSafe.v` again; undefined gradients at any time: a scan that either has no result before or draws the state (`NanLater.v`, also for C93) |
| C96 | invariance for C95 | C86 given the auxiliary variables and the proposals they determine, summed over them (`NanTwistedInv.v`) |

## 3. Files

Model files (definitions only, every one with the file and lines of `/repo` it transcribes):
`Resampling.v` (utils/resamplings.py, utils/common.py), `Csmc.v` (csmc.py), `AuxCsmc.v`
(rw_csmc.py, l_csmc_f.py, al_csmc_f.py), `Gauss.v` (utils/math.py, utils/marginalisation.py, weight
corrections), `Proposal.v` (preconditioned proposal), `TpCsmc.v` (tp_csmc.py, atp_csmc_f.py), `TpReal.v` (the same on R^d),
`Single.v` (mala.py, tp.py, imh.py), `SingleReal.v` (the same on R^d), `Drivers.v` (utils/mcmc_utils.py, utils/pbar.py, the loops of tp.py
and t_atp_csmc_f.py), `Kalman.v` (utils/kalman), `Twisted.v` (t_atp_csmc_f.py), `TwistedReal.v` (the same on R^d), `Smooth.v`
(al_csmc_s.py, atp_csmc_s.py), `Experiments.v` (experiments).  `Prog.v` is the language of random programs,
`RInst.v` makes the standard reals a mathcomp field.

Vocabulary of the statements (no reference to the model): `Spec.v`, `GaussSpec.v`, `SingleSpec.v`,
`DriverSpec.v`, `KalmanSpec.v`, `SmoothSpec.v`, `ExperimentSpec.v`,
`DensitySpec.v`.  The one of long runs is in `ErgodicSpec.v` and `ErgodicSingleSpec.v`, the one of limits in `LimitSpec.v`, the one of whole experiments in `RunSpec.v` and `RunAcceptSpec.v`, the contracts of C72 in `ProperSpec.v`.  `NanCsmc.v` models csmc.py again, with log-densities that may be infinite; `NanRw.v` does the same for rw_csmc.py, `NanAl.v` for al_csmc_f.py, `NanL.v` for l_csmc_f.py, `NanAtp.v` for atp_csmc_f.py and tp_csmc.py, `NanTwisted.v` for t_atp_csmc_f.py; `NanImh.v` for imh.py and `NanSingle.v` for mala.py and tp.py; `NanSpec.v` has the vocabulary of C86, C87 and C89 to C96.  `Runs.v` models the arguments the stochastic volatility experiment passes to its loops.  `Esjd.v` models what the scaling experiment computes from its kernels, `EsjdSpec.v` the vocabulary for it.  `AcceptSpec.v` has the vocabulary for moves and acceptance rates.  `DiagnosticsSpec.v` and `TablesSpec.v` have the one of the recorded diagnostics and of the tables.  `StepSizes.v` models the step sizes of the scaling experiment and `_log_1_m_exp`, `StepSizesSpec.v` has its vocabulary.  `PriorLogpdf.v` models `prior_logpdf` of imh.py.  `DensitySmoothSpec.v` has the joint density of C88.  `DensityModel.v` states what the densities of the particles must satisfy.

Statements: `Props*.v`.  They contain theorems closed by `exact`, examples that show hypotheses can be met, and
`Print Assumptions`.  All other files are proofs.

## 4. What is modelled and what is not

Modelled, function by function: every function of `gradient_csmc` that is used by a kernel, a loop or an
experiment.  Simplifications, repeated in the comments of the definitions:

| Code | Simplification |
|---|---|
| all kernels | exact reals; finite state spaces in the invariance theorems other than C52-C59 and C88; gradients and potentials are arbitrary functions |
| `jax.random.normal` in kernels | a draw from an arbitrary mass function on a finite group, with the log-density the code evaluates as a separate function; the theorems assume the two agree up to a constant, and C21-C25, C43 prove that of the Gaussian formulas |
| `jnp.nan_to_num`, `jnp.nansum`, `jnp.isfinite` in `_get_constant` | identity, sum, all entries finite |
| `jnp.vectorize`, `vmap` | the function on one element |
| `csmc.py` callbacks | `Gamma` acts particle by particle; `M` acts on arrays |
| numbers in `NanCsmc.v`, `NanRw.v`, `NanAl.v`, `NanL.v`, `NanAtp.v`, `NanTwisted.v`, `NanImh.v`, `NanSingle.v` | reals, -inf, +inf, NaN with the IEEE rules for sums, exp, log and max; no rounding, overflow or underflow; what `jax.random` and the functions of `utils` do with weights that are not finite is not modelled, such a run has no result; in `NanSingle.v`, `NanAl.v`, `NanL.v`, `NanAtp.v` and `NanTwisted.v` a gradient with an entry that is not a finite number is undefined as a whole |
| `al_csmc_s.py`, `atp_csmc_s.py` | T >= 2; reads past the end of an array are clamped |
| `tp.py` Kalman proposal | a posterior sampler with the contract proved in C38; the sampler itself in C59 |
| `t_atp_csmc_f.py` adaptation | the aggregate of the rates over time is an arbitrary function; the mean is modelled |
| `pbar.py` | host callbacks are events emitted in order |
| experiments | standard normal noises are given; grids, factories, data, initial states, keys |
| `tfp.stats.auto_correlation`, `tfp.mcmc.effective_sample_size`, `_reduce_variance` | the formulas of their documentation, for the arguments used (`Diagnostics.v`); NaN is `None` |
| `results_analysis.py` | the columns of the tables, names, files and autocorrelations (`Tables.v`, `Diagnostics.v`); pandas assignments by position, csv files read back as written |

Not modelled: floating point; compilation (`jit`), devices and memory; running the Python test functions (what those of `common.py` and `t_atp_csmc_f.py` assert is proved in general in C82);
the display of the progress bar; plots and timing; argument parsing; the lists `DS` and `TS` of lgssm_scaling/distribute.py (arbitrary in C84); T = 1 in the smoothing-gradient kernels; shapes of broadcasts other than those named in C27, C42.

## 5. Where the code does not have the property

Each line is a machine-checked refutation of the full claim for the faithful model, with the part that
does hold.  The manifest marks these claims `partial`.

| Claim | What is false | Theorems | What holds |
|---|---|---|---|
| C07, C08 | `force_move` replaces the rest weights by uniform ones when `w_k >= max(1 - exp(-M), 1 - 1e-12)` (common.py:36-38): not reversible, and less mobile than Barker there | `C07_force_move_refuted`, `C08_peskun_refuted` | exact outside that interval; error bound everywhere |
| C09 | the reported acceptance probability is not the leave probability | `C09_force_alpha_refuted` | upper bound; exact when the reference has the largest weight |
| C10, C11, C30-C32 | not exactly invariant with `force_move` (the default) | `C10_force_move_refuted`, `C30_mala_force_move_refuted`, `C31_tp_force_move_refuted`, `C32_imh_force_move_refuted` | exact for every move that meets its contract (Barker); error bound for `force_move` |
| C15 | with `conditional=False, backward=False` the final index still goes through `ancestor_move_func` with `b_star` (csmc.py) | `C15_unconditional_refuted` | `backward=True`; Barker |
| C16, C27 | `al_csmc_s`, `atp_csmc_s` with T = 2 and backward sampling consume `keys[0]` twice and return arrays of length 3 | `C16_keys_al_s_atp_s_refuted`, `C27_shapes_refuted` | T >= 3, or backward scanning |
| C25, C44, C51 | `chol_inv = U / temp` (atp_csmc_f.py:153) is not the inverse of `chol = U * temp`, so the evaluated proposal density is not the sampled one unless the covariance is diagonal | `C25_density_refuted`, `C51_sv_preconditioned_refuted` | mean and covariance; density when diagonal; invariance given a right density |
| C28 | `xs_m_1[0]` is built from `x0` after it has been overwritten by its resampled copy (al_csmc_s.py:232, atp_csmc_s.py:286) | `C28_predecessors_refuted` | all later generations |
| C29, C46 | `atp_csmc_s` never inserts the reference | `C29_reference_atp_s_refuted`, `C46_atp_s_refuted` | all other kernels |
| C64 | README.md:39: `atp_csmc_s` does not recover Particle-aGRAD for univariate potentials (same cause as C29) | `C64_atp_s_recovers_refuted` | the potentials coincide; `al_csmc_s` recovers `al_csmc_f` |
| C46 | `al_csmc_s` with backward sampling and T = 2 | `C46_al_s_two_steps_refuted` | scanning; T >= 3 under a condition on the first gradient |
| C88 | the same on R^d, given all particles | `C88_al_s_two_steps_refuted` | as above |
| C89 | `imh.py` may meet undefined weights after `force_move` has selected a trajectory of likelihood 0 | `C89_iterations_refuted` | one step from positive likelihood; all iterations with the Barker move |
| C90 | `mala.py` may meet undefined weights after `force_move` has selected a proposal of density 0 | `C90_iterations_refuted` | one step from positive density; all iterations with the Barker move |
| C91 | `al_csmc_f.py` on potentials with a zero where the gradient is undefined may meet undefined weights | `C91_undefined_gradient`, `C91_undefined_gradient_later` | gradients defined everywhere |
| C92 | `l_csmc_f.py` on potentials with a zero where the gradient is undefined may meet undefined weights | `C92_undefined_gradient`, `C92_undefined_gradient_later` | gradients defined everywhere |
| C93 | `atp_csmc_f.py` and `tp_csmc.py` on potentials with a zero where the gradient is undefined may meet undefined weights | `C93_atp_undefined_gradient`, `C93_tp_undefined_gradient` | gradients defined everywhere |
| C95 | the same of `t_atp_csmc_f.py` | `C95_undefined_gradient`, `C95_undefined_gradient_later` | gradients defined everywhere |
| C90 | a target of density 0 whose gradient is undefined there makes one step of `mala.py` or `tp.py` undefined | `C90_undefined_gradient_mala`, `C90_undefined_gradient_tp` | gradients defined everywhere |
| C46 | `al_csmc_s` with backward sampling, T = 3, gradient of time 1 depending on the state of time 0 (two states, two particles, flat target) | `C46_al_s_three_steps_refuted` | as above |
| C66 | variances are clipped at 1e-15 (atp_csmc_f.py:150), so the proposals do not collapse with the prior covariance (not a concern at the scales of the experiments) | `C66_vanishing_prior_refuted` | while nothing is clipped the proposal is more concentrated than the prior |
| C39, C45 | `_get_reversed_dynamics` is not the time reversal (mean `F'm - F'b`, covariance `F'PF`, gain) | `C39_reversed_refuted`, `C39_gain_refuted`, `C45_target_refuted` | exact conditions on one step; whole chain under them; proposals are conditionals of the reversed chain |
| C40 | SV `log_pdf` multiplies the prediction by `b` (model.py:72) | `C40_sv_mala_refuted` | all other kernels of both experiments |
| C41 | SV drift is `(I + F) mu` instead of `(I - F) mu` | `C41_stationary_mean_refuted` | covariance; mean exactly when `nu phi = 0` |
| C42 | SV grid zips 18 kernels with 14 styles | `C42_sv_accepted_refuted`, `C42_sv_once_refuted`, `C42_sv_kernels_refuted`, `C42_sv_files_refuted` | lgssm grid |
| C48 | lgssm `get_data` draws twice with `init_key` (model.py:12-13) | `C48_lgssm_data_refuted` | SV data, both experiments around any kernel |
| C49 | SV `get_data` calls `solve(assume_a="pos")` on a triangular factor | `C49_energy_refuted` | diagonal covariances |
| C79 | the estimated autocorrelations can exceed 1; one chain gives NaN (results_analysis.py:46-58) | `C79_between_m1_and_1_refuted`, `C79_one_chain` | bound n/(n-l); at least two chains |
| C80 | with 2 to 1000 samples the autocorrelations do not fit `acf_all`, and the experiment stops after sampling (experiment.py:219, 237) | `C80_saved_refuted` | one sample, or more than 1000 |
| C69 | weights of `atp_csmc_f` subtracting a log-density that is not the one of the proposal (C25) | `C69_density_refuted` | right log-densities up to a constant |
| C83 | `_log_1_m_exp` adds back the greatest entry m after the logarithm (common.py:77-78): not log(1 - exp(x)), and minus infinity at m | `C83_log_1_m_exp_refuted`, `C83_at_greatest` | log(exp(m) - exp(x)) below m; right exactly when m = 0 |
| C86 | once the reference has weight at least 1 - 1e-12, `force_move` proposes uniformly among all particles, also those of weight 0, and may accept (common.py:35-38); the next run then starts outside the support | `C86_force_move_refuted` | Barker, and every move that leaves the weights invariant |
| C86 | with `conditional=False` all particles may have weight 0: NaN weights | `C86_unconditional_refuted` | conditional runs |

## 6. Trusted base

* Coq 8.16.1's kernel (no kernel check is switched off; no axiom, parameter, admitted proof, functor or module type is
  declared in the development).
* The axioms below, all from Coq's standard library, as printed by `Print Assumptions` for the 419 property
  theorems.
* `coqchk -o` on all files `Props*.v` and what they depend on accepts the development, lists the same five axioms
  and no others, no type-in-type, no unsafe fixpoint and no assumed positivity.
* The reading of `/repo` recorded in the comments of the model files, including the behaviour of the
  library functions of section 1 (JAX, NumPy, Python's `zip`).

Full names: `Coq.Logic.Classical_Prop.classic`, `Coq.Logic.Epsilon.epsilon_statement`,
`Coq.Logic.FunctionalExtensionality.functional_extensionality_dep`,
`Coq.Reals.ClassicalDedekindReals.sig_forall_dec`, `Coq.Reals.ClassicalDedekindReals.sig_not_dec`.  mathcomp
(ssreflect, fingroup, algebra) is used as a library; it adds no axiom.

| Axioms | Theorems |
|---|---|
| none ("Closed under the global context") | `C18_guard_cases`, `C18_guard_finite`, `C26_auxiliary_variables`, `C37_accounts`, `C42_dispatch`, `C42_dispatch_sv`, `C42_lgssm_accepted`, `C42_lgssm_files`, `C42_lgssm_once`, `C42_sv_accepted_partial`, `C42_sv_accepted_refuted`, `C42_sv_files_refuted`, `C42_sv_kernels_refuted`, `C42_sv_once_refuted`, `C48_lgssm_data_refuted`, `C48_lgssm_experiment`, `C48_sv_data`, `C48_sv_experiment`, `C81_frame`, `C81_groups`, `C81_names`, `C81_reload`, `C81_size`, `C84_files`, `C84_grid`, `C84_scale` |
| `functional_extensionality_dep` | `C36_records`, `C36_records_tp`, `C37_same_loop` |
| `epsilon_statement`, `functional_extensionality_dep`, `sig_forall_dec` | `C02_multinomial`, `C03_killing_conditional`, `C04_killing_unbiased`, `C05_reference_lineage_kept`, `C06_barker_move`, `C10_code_contracts`, `C21_correction_completes_square`, `C22_log_H_completes_square`, `C22_log_H_is_block_density`, `C23_bis_is_general`, `C23_l_is_mala`, `C23_mala_is_general`, `C26_factorisation`, `C26_full_gradient`, `C26_reduces_to_filtering`, `C31_correction`, `C35_mean`, `C36_keeps_target`, `C41_covariances`, `C41_stationary_covariance`, `C41_stationary_mean_iff`, `C41_stationary_mean_refuted`, `C41_stationary_partial`, `C62_consistent`, `C62_last_state`, `C62_recorded_averages`, `C64_atp_s_potentials`, `C71_last_state`, `C71_recorded_averages`, `C72_data`, `C72_experiments`, `C74_bounds`, `C74_estimates`, `C74_jump`, `C75_acceptance`, `C75_acceptance_consistent`, `C75_recorded`, `C76_acceptance`, `C76_acceptance_consistent`, `C76_recorded`, `C79_autocorr_partial`, `C79_between_m1_and_1_refuted`, `C79_invariance`, `C79_lags`, `C79_one_chain`, `C79_stuck`, `C80_ess`, `C80_invariance`, `C80_saved_rates`, `C81_columns`, `C81_energy_acf`, `C81_ess`, `C81_means`, `C81_stat_unique`, `C82_reversed`, `C86_code_contracts` |
| `classic`, `epsilon_statement`, `functional_extensionality_dep`, `sig_forall_dec` | `C80_acf`, `C80_saved_partial`, `C80_saved_refuted` |
| `epsilon_statement`, `functional_extensionality_dep`, `sig_forall_dec`, `sig_not_dec` | `C07_force_move_error_bound`, `C07_force_move_refuted`, `C07_force_move_reversible`, `C08_force_move_dominates_barker`, `C08_peskun_refuted`, `C09_force_alpha_bound`, `C09_force_alpha_refuted`, `C16_keys_callbacks`, `C16_keys_loops`, `C16_keys_single`, `C21_correction_is_marginal`, `C21_weight_is_marginal`, `C22_log_H_is_marginal`, `C25_covariance`, `C25_inverse_gain`, `C25_mean`, `C25_sampled`, `C30_code_moves`, `C30_log_density`, `C33_history`, `C33_history_imh`, `C33_step`, `C33_step_imh`, `C34_interval`, `C34_interval_t_atp`, `C34_interval_tp`, `C35_direction`, `C35_direction_t_atp`, `C35_direction_tp`, `C38_cholesky`, `C38_prior_sampling`, `C43_correction`, `C49_inverse_factor_iff`, `C60_C61_contracts`, `C63_parts`, `C65_turn`, `C66_unclipped_partial`, `C66_vanishing_prior_refuted`, `C72_contracts`, `C72_loops`, `C72_single`, `C73_particles`, `C73_positions`, `C77_particles`, `C77_positions`, `C78_consistent`, `C78_deviations`, `C78_means`, `C82_degenerate`, `C82_two`, `C82_uniform`, `C89_imh`, `C89_imh_force_move_error`, `C89_iterations_partial`, `C89_weights_finite`, `C90_iterations_partial`, `C90_mala_auxiliary`, `C90_mala_force_move_error`, `C90_mala_marginal`, `C90_tp`, `C90_tp_force_move_error`, `C90_undefined_gradient_mala`, `C90_undefined_gradient_tp`, `C90_weights_finite` |
| `classic`, `epsilon_statement`, `functional_extensionality_dep`, `sig_forall_dec`, `sig_not_dec` | `C01_normalize`, `C10_C11_force_move_error`, `C10_C11_general`, `C10_csmc_tracing`, `C10_force_move_refuted`, `C11_csmc_backward`, `C12_reference_carried`, `C13_trajectory_of_particles`, `C14_unchanged_index`, `C15_unconditional_ignores_reference`, `C15_unconditional_refuted`, `C16_keys_al_s_atp_s_partial`, `C16_keys_al_s_atp_s_refuted`, `C16_keys_atp_tp`, `C16_keys_csmc`, `C16_keys_rw_l_al`, `C16_keys_t_atp`, `C17_rw_force_move_error`, `C17_rw_invariant`, `C18_rw_finite`, `C19_al_f_force_move_error`, `C19_al_f_invariant`, `C20_l_f_force_move_error`, `C20_l_f_invariant`, `C24_mvn_logpdf`, `C24_norm_logpdf`, `C24_rvs`, `C24_swap`, `C25_density_partial`, `C25_density_refuted`, `C27_shapes_partial`, `C27_shapes_refuted`, `C28_predecessors_partial`, `C28_predecessors_refuted`, `C29_reference_al_s`, `C29_reference_atp_s_refuted`, `C29_reference_rw_l_al`, `C29_shapes_atp_tp`, `C29_shapes_rw_l_al`, `C29_shapes_t_atp`, `C30_mala_auxiliary`, `C30_mala_auxiliary_ratio`, `C30_mala_force_move_error`, `C30_mala_force_move_refuted`, `C30_mala_marginal`, `C30_mala_marginal_ratio`, `C31_tp`, `C31_tp_force_move_error`, `C31_tp_force_move_refuted`, `C31_tp_ratio`, `C32_imh`, `C32_imh_force_move_error`, `C32_imh_force_move_refuted`, `C32_imh_ratio`, `C38_draw`, `C38_filter_sampler_smoother`, `C38_predict`, `C38_smoothed_marginal`, `C38_update`, `C39_gain_refuted`, `C39_reversed_partial`, `C39_reversed_refuted`, `C39_step_iff`, `C40_lgssm`, `C40_lgssm_twisted`, `C40_sv`, `C40_sv_mala_actual`, `C40_sv_mala_iff`, `C40_sv_mala_partial`, `C40_sv_mala_refuted`, `C40_sv_twisted`, `C43_tp_force_move_error`, `C43_tp_invariant`, `C44_atp_force_move_error_partial`, `C44_atp_invariant_partial`, `C45_kernel_force_move_error_partial`, `C45_kernel_invariant_partial`, `C45_proposals`, `C45_target_partial`, `C45_target_refuted`, `C46_al_s_sampling_force_move_error_partial`, `C46_al_s_sampling_invariant_partial`, `C46_al_s_scanning_force_move_error`, `C46_al_s_scanning_invariant`, `C46_al_s_three_steps_refuted`, `C46_al_s_two_steps_refuted`, `C46_atp_s_refuted`, `C47_lgssm_data`, `C47_sv_data`, `C49_energy_partial`, `C49_energy_refuted`, `C50_lgssm_init`, `C51_lgssm_bootstrap`, `C51_lgssm_preconditioned`, `C51_sv_bootstrap`, `C51_sv_preconditioned_refuted`, `C52_csmc_density`, `C52_csmc_force_move_error`, `C53_rw_density`, `C53_rw_force_move_error`, `C53_rw_kernel_is_sweep`, `C54_al_density`, `C54_al_force_move_error`, `C54_al_kernel_is_sweep`, `C55_l_density`, `C55_l_force_move_error`, `C55_l_kernel_is_sweep`, `C56_tp_density`, `C56_tp_force_move_error`, `C57_atp_density_iff`, `C57_atp_density_partial`, `C57_atp_density_refuted`, `C57_atp_force_move_error_partial`, `C58_t_atp_density_partial`, `C58_t_atp_force_move_error_partial`, `C59_imh_density`, `C59_imh_error`, `C59_mala_auxiliary_density`, `C59_mala_auxiliary_error`, `C59_mala_marginal_density`, `C59_mala_marginal_error`, `C59_tp_density`, `C59_tp_error`, `C59_tp_noise`, `C60_al_indices`, `C60_csmc_indices`, `C60_l_indices`, `C60_rw_indices`, `C61_al`, `C61_al_force`, `C61_csmc`, `C61_csmc_force`, `C61_l`, `C61_l_force`, `C61_one_particle_refuted`, `C61_rw`, `C61_rw_force`, `C63_agrad`, `C63_auxiliary_mala`, `C63_imh`, `C63_mala`, `C63_prior_times_noise`, `C64_al_s_recovers_partial`, `C64_atp_s_recovers_refuted`, `C65_flat_prior`, `C65_flat_prior_aux`, `C65_informative_prior`, `C65_informative_prior_aux`, `C67_atp_forgets`, `C67_atp_indices`, `C67_csmc_forgets`, `C67_sweep_forgets`, `C67_t_atp_forgets`, `C67_t_atp_indices`, `C67_tp_forgets`, `C67_tp_indices`, `C68_tp`, `C68_tp_force`, `C69_atp_force_partial`, `C69_atp_partial`, `C69_density_refuted`, `C69_t_atp_force_partial`, `C69_t_atp_partial`, `C70_imh`, `C70_imh_force`, `C70_imh_forgets`, `C70_mala`, `C70_mala_force`, `C70_mala_forgets`, `C70_tp`, `C70_tp_force`, `C70_tp_forgets`, `C72_csmc`, `C72_smoothing`, `C72_sweeps`, `C72_t_atp`, `C72_tp_csmc`, `C73_al`, `C73_csmc`, `C73_l`, `C73_mala`, `C73_rw`, `C73_start`, `C73_tp`, `C73_tp_csmc`, `C74_al`, `C74_csmc`, `C74_l`, `C74_rw`, `C74_tp_csmc`, `C75_al`, `C75_csmc`, `C75_l`, `C75_rw`, `C75_tp`, `C76_imh`, `C76_mala`, `C76_tp`, `C77_al`, `C77_csmc`, `C77_l`, `C77_mala`, `C77_rw`, `C77_tp`, `C77_tp_csmc`, `C83_at_greatest`, `C83_below`, `C83_log_1_m_exp_partial`, `C83_log_1_m_exp_refuted`, `C84_decreasing`, `C84_fails`, `C84_law`, `C84_runs`, `C84_sigma`, `C85_density`, `C85_sampled`, `C86_agrees`, `C86_force_move_refuted`, `C86_has_result`, `C86_invariant`, `C86_iterations`, `C86_unconditional_refuted`, `C87_agrees`, `C87_has_result`, `C87_invariant`, `C87_iterations`, `C88_al_s_density`, `C88_al_s_force_move_error`, `C88_al_s_kernel_is_sweep`, `C88_al_s_sampling_density_partial`, `C88_al_s_sampling_force_move_error_partial`, `C88_al_s_two_steps_refuted`, `C89_agrees`, `C89_iterations_refuted`, `C90_agrees`, `C90_iterations_refuted`, `C91_agrees`, `C91_has_result`, `C91_invariant`, `C91_iterations`, `C91_undefined_gradient`, `C91_undefined_gradient_later`, `C92_agrees`, `C92_has_result`, `C92_invariant`, `C92_iterations`, `C92_undefined_gradient`, `C92_undefined_gradient_later`, `C93_any_proposal`, `C93_atp_agrees`, `C93_atp_has_result`, `C93_atp_iterations`, `C93_atp_undefined_gradient`, `C93_atp_undefined_gradient_later`, `C93_tp_agrees`, `C93_tp_has_result`, `C93_tp_iterations`, `C93_tp_undefined_gradient`, `C93_tp_undefined_gradient_later`, `C94_atp_invariant_partial`, `C94_tp_invariant`, `C95_agrees`, `C95_has_result`, `C95_iterations`, `C95_undefined_gradient`, `C95_undefined_gradient_later`, `C96_invariant_partial` |

## 7. Seeded faults

`seeded/LOG.jsonl` lists wrong programs: one definition of the model is edited in a scratch copy, the
development is rebuilt, and every proof that breaks is replaced by a hole.  A theorem is listed as failed
when it depends on such a hole: its proof no longer goes through for the wrong program.
Each line gives the definition, the edit, the claims it breaks and the theorems that failed.  A `note` says when the
edited file did not typecheck (nothing is concluded), when no theorem failed, or when other claims broke than
those expected beforehand.
