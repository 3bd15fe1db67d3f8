(** * Property theorems C63-C64: which kernel is a special case of which (README.md:14, 16, 39, 44).
    Statements only; the proofs are in OneStep.v, OneStepReal.v and Univariate.v.

    C63: with a single time step (T = 1) the particle kernels are the single-state kernels.  C64: with potentials that
    do not depend on the previous state (so that the gradient with respect to it is zero) the smoothing-gradient
    kernels are the filtering-gradient ones.  Laws are compared through expectations of arbitrary functions. *)
From Coq Require Import Reals.
From mathcomp Require Import all_ssreflect all_algebra.
From Verif Require Import RInst Prog Resampling Spec Csmc CsmcInvariance CsmcSpecs AuxCsmc AuxFinal TpCsmc Smooth Single SingleSpec.
From Verif Require Import Gauss GaussSpec Kalman KalmanSpec DensitySpec DensityFinal TpReal DensityTp SingleFinal SmoothWitness.
From Verif Require Import MoveProofs ErgodicSpec ErgodicContracts OneStep OneStepReal Univariate.

Set Implicit Arguments.
Unset Strict Implicit.
Unset Printing Implicit Defensive.
Import GRing.Theory Num.Theory Order.TTheory.
Local Open Scope ring_scope.

(** ** C63 *)
(** [f] reads the returned state and the flag that says whether the state was moved: the flag of the single-state
    kernels, and for the particle kernels whether the returned index differs from the index [b] of the reference.
    The keys of the two calls need not be the same, [b] may be any index, and the resampling scheme and the choice of
    [backward] do not matter. *)

(** al_csmc_f.py with T = 1 is mala.py with auxiliary variables. *)
Theorem C63_auxiliary_mala (X : finZmodType) (n' : nat) (Q setting : Type) (noise ld : setting -> X -> R)
    (scale : setting -> X -> X) (rs : resampler n'.+1) (mv : mover n'.+1) (G0 : X -> R) (Gt : X -> X -> Q -> R)
    (g0 : X -> X) (gt : X -> X -> Q -> X) (f : seq X -> bool -> R)
    (key key' : key) b x s0 (backward : bool) log_H :
  rotates_move (index_of mv) -> (forall s, prob_vec (noise s)) -> (forall s z, ld s (- z) = ld s z) ->
  E (al_kernel noise ld scale rs mv G0 Gt g0 gt key x [::] b [::] s0 [::] [::] backward)
    (fun r => f r.1.1 (r.1.2 != [:: b]))
  = E (mala_kernel G0 g0 (noise s0) (ld s0) (scale s0) log_H mv key' true (tp1_init G0 g0 x))
      (fun r => f [:: r.1.1.1] r.2).
Proof. by move=> mvR nP ldN; apply: al_one_step. Qed.
Print Assumptions C63_auxiliary_mala.

(** l_csmc_f.py with T = 1 is mala.py without auxiliary variables, when the two log-corrections agree up to a constant
    that does not depend on the particle ([C63_parts] below: they are equal). *)
Theorem C63_mala (X : finZmodType) (n' : nat) (Q setting : Type) (noise ld : setting -> X -> R)
    (scale : setting -> X -> X) (logH : setting -> {ffun 'I_n'.+1 -> X} -> X -> X -> R)
    (rs : resampler n'.+1) (mv : mover n'.+1) (G0 : X -> R) (Gt : X -> X -> Q -> R)
    (g0 : X -> X) (gt : X -> X -> Q -> X) (f : seq X -> bool -> R)
    (key key' : key) b x s0 (backward : bool) log_H :
  rotates_move (index_of mv) -> (forall s, prob_vec (noise s)) ->
  (forall s z a phi y, logH s (moved a z) phi y = logH s z phi y) ->
  (forall z, exists c, forall i phi, logH s0 z phi (z i) = log_H z (z i) phi + c) ->
  E (l_kernel noise scale logH rs mv G0 Gt g0 gt key x [::] b [::] s0 [::] [::] backward)
    (fun r => f r.1.1 (r.1.2 != [:: b]))
  = E (mala_kernel G0 g0 (noise s0) (ld s0) (scale s0) log_H mv key' false (tp1_init G0 g0 x))
      (fun r => f [:: r.1.1.1] r.2).
Proof. by move=> mvR nP rH eH; apply: l_one_step. Qed.
Print Assumptions C63_mala.

(** csmc.py with T = 1 is imh.py, when the weight at the first time step is the density handed to imh.py. *)
Theorem C63_imh (X : finType) (n' : nat) (P Q : Type) (md : model X n' P Q) (rs : resampler n'.+1) (mv : mover n'.+1)
    (mu0 : X -> R) (f : seq X -> bool -> R) (key0 key' : key) b x (backward : bool) (log_pdf : X -> R)
    (ps : key -> prog {ffun 'I_n' -> X}) :
  rotates_move (index_of mv) ->
  (forall key, samples_indep (M0_rvs md key) (fun _ => mu0)) -> (forall key, samples_indep (ps key) (fun _ => mu0)) ->
  (forall z : {ffun 'I_n'.+1 -> X}, exists c, forall i, Gamma0 md (z i) - M0_logpdf md z i = log_pdf (z i) + c) ->
  E (kernel rs mv md key0 x [::] b [::] [::] [::] backward true) (fun r => f r.1.1 (r.1.2 != [:: b]))
  = E (imh_kernel log_pdf ps mv key' (imh_init log_pdf x)) (fun r => f [:: r.1.1] r.2).
Proof. by move=> *; apply: csmc_one_step. Qed.
Print Assumptions C63_imh.

(** atp_csmc_f.py with T = 1 is tp.py (the README's "grad.py"), when the sampler handed to tp.py draws from the proposal
    and prior times noise is the proposal's density up to a constant ([C63_prior_times_noise] below). *)
Theorem C63_agrad (X : finZmodType) (n' : nat) (Q : Type)
    (noise0 ld0 : X -> R) (noise ld : Q -> X -> R) (scale0 : X -> X) (scale : Q -> X -> X)
    (pnoise0 pld0 : X -> R) (pnoise pld : Q -> X -> R) (mean0 : X -> X) (mean : Q -> X -> X -> X)
    (prior0 : X -> R) (prior : X -> X -> Q -> R)
    (r0 : X -> R) (rt : X -> X -> Q -> R) (g0 : X -> X) (gt : X -> X -> Q -> X)
    (rs : resampler n'.+1) (mv : mover n'.+1) (f : seq X -> bool -> R) (corr : X -> X -> X -> R)
    (ps : key -> X -> prog {ffun 'I_n' -> X}) (key0 key' : key) b x (backward : bool) :
  rotates_move (index_of mv) -> prob_vec pnoise0 ->
  (forall key u, samples_indep (ps key u) (fun _ y => pnoise0 (y - mean0 u))) ->
  (forall u x g, corr u x g = ld0 (u - x - scale0 g) - ld0 (u - x)) ->
  (forall u, exists c, forall x, prior0 x + ld0 (u - x) = pld0 (x - mean0 u) + c) ->
  E (atp_kernel noise0 ld0 noise ld scale0 scale pnoise0 pld0 pnoise pld mean0 mean prior0 prior r0 rt g0 gt rs mv
       key0 x [::] b [::] [::] backward) (fun r => f r.1.1 (r.1.2 != [:: b]))
  = E (tp1_kernel r0 g0 noise0 scale0 mv corr ps key' (tp1_init r0 g0 x)) (fun r => f [:: r.1.1.1] r.2).
Proof. by move=> *; apply: atp_one_step. Qed.
Print Assumptions C63_agrad.

(** The expressions of the code on real vectors meet the hypotheses: the log-density of the noise is the same in
    mala.py and al_csmc_f.py and even; the correction of l_csmc_f.py does not change under a rotation of the particles
    and is the one of mala.py; the correction of tp.py is the difference of two log-densities of the noise. *)
Theorem C63_parts (d n' : nat) (delta : R) : 0 < delta ->
  [/\ forall z : 'cV[R]_d, mala_ld delta z = sizes_ld (delta, delta) z
        /\ sizes_ld (delta, delta) (- z) = sizes_ld (delta, delta) z,
      forall (z : {ffun 'I_n'.+1 -> 'cV[R]_d}) a phi x,
        sizes_H (delta, delta) (moved a z) phi x = sizes_H (delta, delta) z phi x,
      forall (z : {ffun 'I_n'.+1 -> 'cV[R]_d}) phi x,
        sizes_H (delta, delta) z phi x = mala_log_H z (2%:R / delta) (1 / 2%:R * delta) x phi
    & forall u x g : 'cV[R]_d, tp1_corr delta u x g
        = sizes_ld (delta, delta) (u - x - sizes_step (delta, delta) g) - sizes_ld (delta, delta) (u - x)].
Proof. exact: one_step_real. Qed.
Print Assumptions C63_parts.

(** Prior density times noise density is the density of the proposal up to a factor free of the state, for the
    expressions of atp_csmc_f.py with a diagonal prior covariance (C25: for others the evaluated density is not the one of the proposal). *)
Theorem C63_prior_times_noise (d : nat) (Q : Type) (s : step d Q) (mu0 : 'cV[R]_d) :
  DensityTp.step_ok s -> st_Q s = diag_mx (st_G s) -> forall u, exists c, forall x,
  step_prior0 mu0 s x + step_ld s (u - x) = step_pld s (x - step_mean0 mu0 s u) + c.
Proof. exact: step_prior_noise. Qed.
Print Assumptions C63_prior_times_noise.

(** The hypotheses are met: the two moves of the code, and an even noise with its sampler on any finite group. *)
Example C63_moves n' : rotates_move (index_of (@barker_move n'.+1)) /\ rotates_move (index_of (@force_move n'.+1)).
Proof. by split; [exact: barker_rotates|exact: force_rotates]. Qed.

Example C63_laws (X : finZmodType) N (ld : X -> R) : (forall z, ld (- z) = ld z) ->
  [/\ prob_vec (OneStep.ex_noise ld),
      forall key u, samples_indep (@ex_sampler X N ld key u) (fun _ y => OneStep.ex_noise ld (y - u))
    & forall u, exists c, forall x, 0 + ld (u - x) = ld (x - u) + c].
Proof. exact: ex_one_step_laws. Qed.

(** ** C64 *)
(** al_csmc_s.py recovers al_csmc_f.py: the law of the returned trajectory and indices is the same.  The full statement
    does not have the last hypothesis, which asks T >= 3 for backward sampling (with T = 2 al_csmc_s.py returns arrays
    of the wrong shape, see C27). *)
Theorem C64_al_s_recovers_partial (X : finZmodType) (n' : nat) (Q setting : Type) (noise ld : setting -> X -> R)
    (scale : setting -> X -> X) (val0 : X -> R) (valt : X -> X -> Q -> R) (g0 : X -> X) (ga gb : X -> X -> Q -> X)
    (rs : resampler n'.+1) (mv : mover n'.+1) (key : key) x0 xs b0 bs s0 ss qs (backward : bool) f :
  (forall a b q, ga a b q = 0) -> (0 < size qs)%N ->
  size ss = size qs -> size xs = size qs -> size bs = size qs -> (backward -> (1 < size qs)%N) ->
  E (drop_weights (als_kernel noise ld scale val0 valt g0 ga gb rs mv key x0 xs b0 bs s0 ss qs backward)) f
  = E (drop_weights (al_kernel noise ld scale rs mv val0 valt g0 gb key x0 xs b0 bs s0 ss qs backward)) f.
Proof. by move=> *; apply: al_s_recovers. Qed.
Print Assumptions C64_al_s_recovers_partial.

(** atp_csmc_s.py and atp_csmc_f.py use the same potentials ... *)
Theorem C64_atp_s_potentials (X : finZmodType) (Q : Type)
    (ld : Q -> X -> R) (scale : Q -> X -> X) (prior0 r0 : X -> R) (prior rt : X -> X -> Q -> R)
    (g0 : X -> X) (ga gb : X -> X -> Q -> X)
    (q0 : Q) (u0 : X) (pm : Q * X * Q) (u : X) (q : Q) xmm xm x :
  (forall a b q, ga a b q = 0) ->
  let val0 x := prior0 x + r0 x in let valt xm x q := prior xm x q + rt xm x q in
  [/\ sm_Gamma_0 ld scale val0 g0 (q0, u0) x = atp_Gamma_0 (ld q0) (scale q0) prior0 r0 g0 u0 x,
      sm_Gamma_1 ld scale valt g0 ga gb (q0, u0) (q, u, q) xm x = atp_Gamma_t ld scale prior rt gb xm x (u, q)
    & sm_Gamma_t ld scale valt ga gb pm (q, u, q) xmm xm x = atp_Gamma_t ld scale prior rt gb xm x (u, q)].
Proof. exact: atp_s_potentials. Qed.
Print Assumptions C64_atp_s_potentials.

(** ... but README.md:39 does not hold: on the group with two elements, with uniform noise and proposals, no gradients,
    and a target that puts weight [w_val0] on the first state, the two kernels have different laws, for every valid
    resampling scheme and move, every number of particles and every T >= 2. *)
Theorem C64_atp_s_recovers_refuted n' m (rs : resampler n'.+1) (mv : mover n'.+1) (key : key) (backward : bool) :
  good_resampler rs -> good_mover mv -> (forall key w k, prob_vec w -> proper (mv key w k)) -> (0 < m)%N ->
  let X := [finZmodType of 'I_2] in
  let law (_ : X) : R := 1 / 2%:R in let zero (_ : X) : R := 0 in let no (_ : X) : X := 0 in
  ~ (forall x0 xs b0 bs f, size xs = m -> size bs = m ->
      E (atps_kernel (fun=> law) (fun=> zero) (fun _ => id) (w_val0 n') w_valt no (fun _ _ _ => 0) (fun _ _ _ => 0) rs mv
           (fun _ => law) (fun _ => zero) (fun _ _ => law) (fun _ _ => zero)
           key x0 xs b0 bs tt (nseq m tt) (nseq m tt) backward) f
      = E (drop_weights (atp_kernel law zero (fun=> law) (fun=> zero) id (fun=> id) law zero (fun=> law) (fun=> zero)
           no (fun _ _ _ => 0) zero (fun _ _ _ => 0) (w_val0 n') w_valt no (fun _ _ _ => 0) rs mv
           key x0 xs b0 bs (nseq m tt) backward)) f).
Proof. exact: atp_s_differs. Qed.
Print Assumptions C64_atp_s_recovers_refuted.
