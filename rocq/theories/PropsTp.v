(** * Property theorems C43, C44 (and C16, C29 for these kernels): tp_csmc.py and
    atp_csmc_f.py.  Statements only; the proofs are in the *Proofs files.

    States range over an arbitrary finite abelian group [X] standing for R^d.  [Q]: all
    parameters of one time step.  [noise0], [noise q]: laws of the auxiliary noise;
    [pnoise0], [pnoise q]: laws of the proposal noise; [mean0 u], [mean q x u]: proposal
    means given the auxiliary variable [u] (and the ancestor [x]); [scale] : gradient
    step; [g0], [gt] stand for the gradients and are arbitrary functions. *)
From Coq Require Import Reals.
From mathcomp Require Import all_ssreflect all_algebra.
From Verif Require Import RInst Prog ProgTheory Resampling Spec Csmc CsmcInvariance AuxCsmc AuxFinal.
From Verif Require Import Gauss GaussSpec Proposal TpCsmc TpFinal.

Set Implicit Arguments.
Unset Strict Implicit.
Unset Printing Implicit Defensive.
Import GRing.Theory Num.Theory Order.TTheory.
Local Open Scope ring_scope.

(** ** C43 *)
(** The correction in the weights is the density of the other particles given one
    particle, the auxiliary variable being summed out, up to a factor that is the same for
    all particles; [C43_correction] proves this of the Gaussian formula of the code. *)
Theorem C43_tp_invariant (X : finZmodType) (n' : nat) (Q : Type)
    (noise0 : X -> R) (noise : Q -> X -> R) (scale0 : X -> X) (scale : Q -> X -> X)
    (pnoise0 : X -> R) (pnoise : Q -> X -> R) (mean0 : X -> X) (mean : Q -> X -> X -> X)
    (prior0 : X -> R) (prior : X -> X -> Q -> R) (r0 : X -> R) (rt : X -> X -> Q -> R)
    (g0 : X -> X) (gt : X -> X -> Q -> X)
    (logH0 : {ffun 'I_n'.+1 -> X} -> X -> 'I_n'.+1 -> R)
    (logH : Q -> {ffun 'I_n'.+1 -> X} -> {ffun 'I_n'.+1 -> X} -> X -> 'I_n'.+1 -> R)
    (rs : resampler n'.+1) (mv : mover n'.+1) (key : key) qs (backward : bool) :
  prob_vec noise0 -> (forall q, prob_vec (noise q)) -> prob_vec pnoise0 -> (forall q, prob_vec (pnoise q)) ->
  good_resampler rs ->
  (exists S : {ffun 'I_n'.+1 -> X} -> R, forall (x : {ffun 'I_n'.+1 -> X}) b phi,
     \sum_u noise0 (u - (x b + phi)) * \prod_(i | i != b) pnoise0 (x i - mean0 u)
     = S x * exp (logH0 x phi b)) ->
  (forall q (xm : {ffun 'I_n'.+1 -> X}), exists S : {ffun 'I_n'.+1 -> X} -> R, forall (x : {ffun 'I_n'.+1 -> X}) b phi,
     \sum_u noise q (u - (x b + phi)) * \prod_(i | i != b) pnoise q (x i - mean q (xm i) u)
     = S x * exp (logH q xm x phi b)) ->
  good_mover mv ->
  leaves_invariant (size qs) (path_target (fun x => prior0 x + r0 x) (fun x y q => prior x y q + rt x y q) qs)
    (fun x0 xs b0 bs => drop_weights
       (tp_kernel noise0 noise scale0 scale pnoise0 pnoise mean0 mean prior0 prior r0 rt g0 gt logH0 logH rs mv key x0 xs b0 bs qs backward)).
Proof. by move=> *; apply: tp_inv. Qed.
Print Assumptions C43_tp_invariant.

Theorem C43_tp_force_move_error (X : finZmodType) (n' : nat) (Q : Type)
    (noise0 : X -> R) (noise : Q -> X -> R) (scale0 : X -> X) (scale : Q -> X -> X)
    (pnoise0 : X -> R) (pnoise : Q -> X -> R) (mean0 : X -> X) (mean : Q -> X -> X -> X)
    (prior0 : X -> R) (prior : X -> X -> Q -> R) (r0 : X -> R) (rt : X -> X -> Q -> R)
    (g0 : X -> X) (gt : X -> X -> Q -> X)
    (logH0 : {ffun 'I_n'.+1 -> X} -> X -> 'I_n'.+1 -> R)
    (logH : Q -> {ffun 'I_n'.+1 -> X} -> {ffun 'I_n'.+1 -> X} -> X -> 'I_n'.+1 -> R)
    (rs : resampler n'.+1) (c : R) (key : key) qs (backward : bool) :
  prob_vec noise0 -> (forall q, prob_vec (noise q)) -> prob_vec pnoise0 -> (forall q, prob_vec (pnoise q)) ->
  good_resampler rs ->
  (exists S : {ffun 'I_n'.+1 -> X} -> R, forall (x : {ffun 'I_n'.+1 -> X}) b phi,
     \sum_u noise0 (u - (x b + phi)) * \prod_(i | i != b) pnoise0 (x i - mean0 u)
     = S x * exp (logH0 x phi b)) ->
  (forall q (xm : {ffun 'I_n'.+1 -> X}), exists S : {ffun 'I_n'.+1 -> X} -> R, forall (x : {ffun 'I_n'.+1 -> X}) b phi,
     \sum_u noise q (u - (x b + phi)) * \prod_(i | i != b) pnoise q (x i - mean q (xm i) u)
     = S x * exp (logH q xm x phi b)) ->
  nearly_invariant (size qs) (path_target (fun x => prior0 x + r0 x) (fun x y q => prior x y q + rt x y q) qs)
    (fun x0 xs b0 bs => drop_weights
       (tp_kernel noise0 noise scale0 scale pnoise0 pnoise mean0 mean prior0 prior r0 rt g0 gt logH0 logH rs (@force_move _) key x0 xs b0 bs qs backward))
    c (force_eps n'.+1 c).
Proof. by move=> *; apply: tp_near. Qed.
Print Assumptions C43_tp_force_move_error.

(** With the proposal parameters of the code for a covariance U diag(G) U^T, the
    function that tp_csmc.py subtracts in its weights is, up to a constant common to all
    particles n and drifts phi, the log of the marginal density: u ~ N(x_n + phi, ell/2 I), then every
    other particle i ~ N(m_i + K (u - m_i), chol chol^T), with u integrated out. *)
Theorem C43_correction (d N : nat) (U : 'M[R]_d) (G : 'rV[R]_d) (ell : R) (xs ms : 'I_N.+1 -> 'cV[R]_d) :
  U *m U^T = 1%:M -> (forall i, 0 < G 0 i) -> 0 < ell ->
  (forall i, stable_zero <= G 0 i * (ell / 2%:R) / (G 0 i + ell / 2%:R)) ->
  let p := get_proposal_params ell U G U^T in
  let K := K_1 p *m K_2 p in
  marginal_of
    (fun (r : 'I_N.+1 * 'cV[R]_d) u => gauss_kernel (ell / 2%:R)%:M u (xs r.1 + r.2)
       + \sum_(i | i != r.1) gauss_kernel (p_chol p *m (p_chol p)^T) (xs i) (prop_mean p u (ms i)))
    (fun r => get_log_H_bis xs (fun i => ms i - K *m ms i) K (p_K_inv p) ell
                (xs r.1) (ms r.1 - K *m ms r.1) r.2).
Proof. by move=> *; apply: tp_marginal. Qed.
Print Assumptions C43_correction.

(** ** C44 *)
(** [ld], [pld]: log-densities of the two noises as evaluated by the code, which must be
    right up to a constant.  For [pld] this fails for the code unless Q = diag(G)
    (C25_density_refuted, C25_density_partial). *)
Theorem C44_atp_invariant_partial (X : finZmodType) (n' : nat) (Q : Type)
    (noise0 : X -> R) (noise : Q -> X -> R) (scale0 : X -> X) (scale : Q -> X -> X)
    (pnoise0 : X -> R) (pnoise : Q -> X -> R) (mean0 : X -> X) (mean : Q -> X -> X -> X)
    (prior0 : X -> R) (prior : X -> X -> Q -> R) (r0 : X -> R) (rt : X -> X -> Q -> R)
    (g0 : X -> X) (gt : X -> X -> Q -> X)
    (ld0 pld0 : X -> R) (ld pld : Q -> X -> R)
    (rs : resampler n'.+1) (mv : mover n'.+1) (key : key) qs (backward : bool) :
  prob_vec noise0 -> (forall q, prob_vec (noise q)) -> prob_vec pnoise0 -> (forall q, prob_vec (pnoise q)) ->
  good_resampler rs ->
  (exists c, c != 0 /\ forall z, exp (ld0 z) = c * noise0 z) ->
  (forall q, exists c, c != 0 /\ forall z, exp (ld q z) = c * noise q z) ->
  (exists c, c != 0 /\ forall z, exp (pld0 z) = c * pnoise0 z) ->
  (forall q, exists c, c != 0 /\ forall z, exp (pld q z) = c * pnoise q z) ->
  good_mover mv ->
  leaves_invariant (size qs) (path_target (fun x => prior0 x + r0 x) (fun x y q => prior x y q + rt x y q) qs)
    (fun x0 xs b0 bs => drop_weights
       (atp_kernel noise0 ld0 noise ld scale0 scale pnoise0 pld0 pnoise pld mean0 mean prior0 prior r0 rt g0 gt rs mv key x0 xs b0 bs qs backward)).
Proof. by move=> *; apply: atp_inv. Qed.
Print Assumptions C44_atp_invariant_partial.

Theorem C44_atp_force_move_error_partial (X : finZmodType) (n' : nat) (Q : Type)
    (noise0 : X -> R) (noise : Q -> X -> R) (scale0 : X -> X) (scale : Q -> X -> X)
    (pnoise0 : X -> R) (pnoise : Q -> X -> R) (mean0 : X -> X) (mean : Q -> X -> X -> X)
    (prior0 : X -> R) (prior : X -> X -> Q -> R) (r0 : X -> R) (rt : X -> X -> Q -> R)
    (g0 : X -> X) (gt : X -> X -> Q -> X)
    (ld0 pld0 : X -> R) (ld pld : Q -> X -> R)
    (rs : resampler n'.+1) (c : R) (key : key) qs (backward : bool) :
  prob_vec noise0 -> (forall q, prob_vec (noise q)) -> prob_vec pnoise0 -> (forall q, prob_vec (pnoise q)) ->
  good_resampler rs ->
  (exists c, c != 0 /\ forall z, exp (ld0 z) = c * noise0 z) ->
  (forall q, exists c, c != 0 /\ forall z, exp (ld q z) = c * noise q z) ->
  (exists c, c != 0 /\ forall z, exp (pld0 z) = c * pnoise0 z) ->
  (forall q, exists c, c != 0 /\ forall z, exp (pld q z) = c * pnoise q z) ->
  nearly_invariant (size qs) (path_target (fun x => prior0 x + r0 x) (fun x y q => prior x y q + rt x y q) qs)
    (fun x0 xs b0 bs => drop_weights
       (atp_kernel noise0 ld0 noise ld scale0 scale pnoise0 pld0 pnoise pld mean0 mean prior0 prior r0 rt g0 gt rs (@force_move _) key x0 xs b0 bs qs backward))
    c (force_eps n'.+1 c).
Proof. by move=> *; apply: atp_near. Qed.
Print Assumptions C44_atp_force_move_error_partial.

(** Non-vacuity: on every finite group, normalised laws and the corrections they
    define meet the hypotheses. *)
Example ex_tp_hypotheses (X : finZmodType) (n' : nat) (Q : Type) (ld pld : Q -> X -> R) (mean : Q -> X -> X -> X) q :
  [/\ prob_vec (ex_noise ld q), prob_vec (ex_noise pld q),
      exists c, c != 0 /\ forall z, exp (pld q z) = c * ex_noise pld q z
    & forall (xm : {ffun 'I_n'.+1 -> X}), exists S : {ffun 'I_n'.+1 -> X} -> R, forall (x : {ffun 'I_n'.+1 -> X}) b phi,
     \sum_u ex_noise ld q (u - (x b + phi)) * \prod_(i | i != b) ex_noise pld q (x i - mean q (xm i) u)
     = S x * exp (ex_tp_logH ld pld mean q xm x phi b)].
Proof. by split; [exact: ex_noise_prob|exact: ex_noise_prob|exact: ex_noise_ld|exact: ex_tp_logH_ok]. Qed.

(** ** C16 and C29 for these kernels *)
Theorem C16_keys_atp_tp (X : finZmodType) (n' : nat) (Q : Type)
    (noise0 : X -> R) (noise : Q -> X -> R) (scale0 : X -> X) (scale : Q -> X -> X)
    (pnoise0 : X -> R) (pnoise : Q -> X -> R) (mean0 : X -> X) (mean : Q -> X -> X -> X)
    (prior0 : X -> R) (prior : X -> X -> Q -> R) (r0 : X -> R) (rt : X -> X -> Q -> R)
    (g0 : X -> X) (gt : X -> X -> Q -> X)
    (logH0 : {ffun 'I_n'.+1 -> X} -> X -> 'I_n'.+1 -> R)
    (logH : Q -> {ffun 'I_n'.+1 -> X} -> {ffun 'I_n'.+1 -> X} -> X -> 'I_n'.+1 -> R)
    (ld0 pld0 : X -> R) (ld pld : Q -> X -> R)
    (rs : resampler n'.+1) (mv : mover n'.+1) (key : key) x0 xs b0 bs qs (backward : bool) :
  (forall key w i j b, uses [:: key] (rs key w i j b)) ->
  (forall key w k, uses [:: key] (mv key w k)) ->
  uses [:: key] (atp_kernel noise0 ld0 noise ld scale0 scale pnoise0 pld0 pnoise pld mean0 mean prior0 prior r0 rt g0 gt rs mv key x0 xs b0 bs qs backward)
  /\ uses [:: key] (tp_kernel noise0 noise scale0 scale pnoise0 pnoise mean0 mean prior0 prior r0 rt g0 gt logH0 logH rs mv key x0 xs b0 bs qs backward).
Proof. exact: uses_two. Qed.
Print Assumptions C16_keys_atp_tp.

(** These kernels run csmc.kernel, for which C12 gives the particle system. *)
Theorem C29_shapes_atp_tp (X : finZmodType) (n' : nat) (Q : Type)
    (noise0 : X -> R) (noise : Q -> X -> R) (scale0 : X -> X) (scale : Q -> X -> X)
    (pnoise0 : X -> R) (pnoise : Q -> X -> R) (mean0 : X -> X) (mean : Q -> X -> X -> X)
    (prior0 : X -> R) (prior : X -> X -> Q -> R) (r0 : X -> R) (rt : X -> X -> Q -> R)
    (g0 : X -> X) (gt : X -> X -> Q -> X)
    (logH0 : {ffun 'I_n'.+1 -> X} -> X -> 'I_n'.+1 -> R)
    (logH : Q -> {ffun 'I_n'.+1 -> X} -> {ffun 'I_n'.+1 -> X} -> X -> 'I_n'.+1 -> R)
    (ld0 pld0 : X -> R) (ld pld : Q -> X -> R)
    (rs : resampler n'.+1) (mv : mover n'.+1) (key : key) x0 xs b0 bs qs (backward : bool) :
  (forall key w i j, always (fun A : {ffun 'I_n'.+1 -> 'I_n'.+1} => A j = i) (rs key w i j true)) ->
  size bs = size qs -> size xs = size qs ->
  always (keeps_shape x0 xs b0 bs) (atp_kernel noise0 ld0 noise ld scale0 scale pnoise0 pld0 pnoise pld mean0 mean prior0 prior r0 rt g0 gt rs mv key x0 xs b0 bs qs backward)
  /\ always (keeps_shape x0 xs b0 bs) (tp_kernel noise0 noise scale0 scale pnoise0 pnoise mean0 mean prior0 prior r0 rt g0 gt logH0 logH rs mv key x0 xs b0 bs qs backward).
Proof. exact: two_shape. Qed.
Print Assumptions C29_shapes_atp_tp.
