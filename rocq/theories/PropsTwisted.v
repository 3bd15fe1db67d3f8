(** * Property theorems C39 and C45 (and C16, C29 for this kernel): t_atp_csmc_f.py.
    Statements only; the proofs are in TwistedProofs and TwistedKernel. *)
From Coq Require Import Reals.
From mathcomp Require Import all_ssreflect all_algebra.
From Verif Require Import RInst Prog ProgTheory Resampling Spec Csmc CsmcInvariance AuxCsmc AuxFinal.
From Verif Require Import Gauss GaussSpec MarginalFinal Kalman KalmanSpec Twisted TwistedProofs TwistedKernel.

Set Implicit Arguments.
Unset Strict Implicit.
Unset Printing Implicit Defensive.
Import GRing.Theory Num.Theory Order.TTheory.
Local Open Scope ring_scope.

(** ** C39 *)
(** The full statement is: for all F, Q, b and Gaussian x ~ N(m, P), the returned parameters
    satisfy N(x; m, P) N(x'; F x + b, Q) = N(x'; m', P') N(x; K x' + mu, Sigma).  One step of the
    code satisfies it exactly in this case: *)
Theorem C39_step_iff (d : nat) (F Q P : 'M[R]_d) (b m : 'cV[R]_d) : spd P -> spd Q ->
  let: ((m', P'), Dyn K Sigma mu) := reversed_body (m, P) (Dyn F Q b) in
  (spd P' /\ spd Sigma /\ forall x x',
     gauss_logpdf P x m + gauss_logpdf Q x' (F *m x + b) = gauss_logpdf P' x' m' + gauss_logpdf Sigma x (K *m x' + mu))
  <-> [/\ F *m P = P *m F^T, F^T *m P *m F = F *m P *m F^T & F^T *m m - F^T *m b = F *m m + b].
Proof. exact: reversed_step_iff. Qed.
Print Assumptions C39_step_iff.

(** A drift in one dimension, and a matrix F that is not symmetric in two, are not
    reversed. *)
Theorem C39_reversed_refuted :
  let: ((m', P'), Dyn K Sigma mu) := reversed_body (0, 1%:M) (Dyn 1%:M 1%:M (1%:M : 'cV[R]_1)) in
  ~ (spd P' /\ spd Sigma /\ forall x x',
     gauss_logpdf 1%:M x 0 + gauss_logpdf 1%:M x' (1%:M *m x + 1%:M) = gauss_logpdf P' x' m' + gauss_logpdf Sigma x (K *m x' + mu)).
Proof. exact: (reversed_refuted (ex_pos 1) (ex_pos 1) drift_bad). Qed.
Print Assumptions C39_reversed_refuted.

Theorem C39_gain_refuted : let F : 'M[R]_2 := \matrix_(i, j) (if (i <= j)%N then 1 else 0) in
  let: ((m', P'), Dyn K Sigma mu) := reversed_body (0, 1%:M) (Dyn F 1%:M 0) in
  ~ (spd P' /\ spd Sigma /\ forall x x',
     gauss_logpdf 1%:M x 0 + gauss_logpdf 1%:M x' (F *m x + 0) = gauss_logpdf P' x' m' + gauss_logpdf Sigma x (K *m x' + mu)).
Proof. exact: (reversed_refuted (ex_pos 2) (ex_pos 2) shear_bad). Qed.
Print Assumptions C39_gain_refuted.

(** Whole chains: under the condition at every step, the returned backward chain has the same
    density as the forward chain at every trajectory.  What is missing is the condition. *)
Theorem C39_reversed_partial (d T : nat) m0 P0 (F Q : nat -> 'M[R]_d) (b : nat -> 'cV[R]_d) :
  spd P0 -> (forall t, spd (Q t)) ->
  (forall t, (t < T)%N -> let P := cov_at P0 F Q t in let m := mean_at m0 F b t in
     [/\ F t *m P = P *m (F t)^T, (F t)^T *m P *m F t = F t *m P *m (F t)^T
       & (F t)^T *m m - (F t)^T *m b t = F t *m m + b t]) ->
  exists (mT : 'cV[R]_d) (PT : 'M[R]_d) (K S : nat -> 'M[R]_d) (mu : nat -> 'cV[R]_d),
  [/\ get_reversed_dynamics (m0, P0) [seq Dyn (F t) (Q t) (b t) | t <- iota 0 T]
      = ((mT, PT), [seq Dyn (K t) (S t) (mu t) | t <- iota 0 T]),
      spd PT, forall t, spd (S t)
    & forall x, chain_logpdf T m0 P0 F Q b x = reverse_logpdf T mT PT K S mu x].
Proof. exact: reversed_chain_exact. Qed.
Print Assumptions C39_reversed_partial.

(** The condition is met by scalar dynamics without drift. *)
Example ex_scalar_dynamics (d : nat) (a : R) (P : 'M[R]_d) :
  [/\ a%:M *m P = P *m a%:M^T, a%:M^T *m P *m a%:M = a%:M *m P *m a%:M^T
    & a%:M^T *m 0 - a%:M^T *m 0 = a%:M *m 0 + 0 :> 'cV[R]_d].
Proof. by rewrite tr_scalar_mx scalar_mxC !mulmx0 subrr addr0. Qed.

(** ** C45 *)
(** The proposals: exact conditionals of the chain given by the reversed dynamics ([mT], [PT],
    [K], [S], [mu] arbitrary here), observed through u_t ~ N(x_t, ell_t / 2 I). *)
Theorem C45_proposals (d T : nat) (mT : 'cV[R]_d) (PT : 'M[R]_d) (K S : nat -> 'M[R]_d) (mu u : nat -> 'cV[R]_d) (ell : nat -> R) :
  spd PT -> (forall t, spd (S t)) -> (forall t, 0 < ell t) ->
  let: (p0, ps) := twisted_params (mT, PT) [seq Dyn (K t) (S t) (mu t) | t <- iota 0 T] (mkseq u T.+1) (mkseq ell T.+1) in
  exists (A C : nat -> 'M[R]_d) (a : nat -> 'cV[R]_d) (c : R),
  [/\ size ps = T /\ (forall t, (t <= T)%N -> spd (C t)),
      forall x e, tM0_rvs p0 e = a 0%N + cholesky (C 0%N) *m e /\ tM0_logpdf p0 x = gauss_kernel (C 0%N) x (a 0%N),
      forall t, (t < T)%N -> forall xp x e, let p := nth p0 ps t in
        tMt_rvs p xp e = A t *m xp + a t.+1 + cholesky (C t.+1) *m e
        /\ tMt_logpdf p xp x = gauss_kernel (C t.+1) x (A t *m xp + a t.+1)
    & forall x, reverse_logpdf T mT PT K S mu x + \sum_(t < T.+1) gauss_logpdf (ell t / 2%:R)%:M (u t) (x t)
        = c + gauss_logpdf (C 0%N) (x 0%N) (a 0%N) + \sum_(t < T) gauss_logpdf (C t.+1) (x t.+1) (A t *m x t + a t.+1)].
Proof. exact: twisted_exact. Qed.
Print Assumptions C45_proposals.

(** The full statement is: the potentials multiply up to the density of the prior chain, times
    the potentials r_t ([rv x t]; [gv x t]: gradient), times the densities of the auxiliary
    variables u_t ~ N(x_t + delta_t / 2 grad r_t, ell_t / 2 I) around the trajectory.  Proved
    under the condition of C39; false without (next theorem). *)
Theorem C45_target_partial (d T : nat) m0 P0 (F Q : nat -> 'M[R]_d) b (u : nat -> 'cV[R]_d) (delta ell : nat -> R) rv gv :
  spd P0 -> (forall t, spd (Q t)) -> (forall t, 0 < ell t) ->
  (forall t, (t < T)%N -> let P := cov_at P0 F Q t in let m := mean_at m0 F b t in
     [/\ F t *m P = P *m (F t)^T, (F t)^T *m P *m F t = F t *m P *m (F t)^T
       & (F t)^T *m m - (F t)^T *m b t = F t *m m + b t]) ->
  let: (final, revs) := get_reversed_dynamics (m0, P0) [seq Dyn (F t) (Q t) (b t) | t <- iota 0 T] in
  let: (p0, ps) := twisted_params final revs (mkseq u T.+1) (mkseq ell T.+1) in
  exists c, forall x : nat -> 'cV[R]_d,
    tGamma_0 p0 (u 0%N) (delta 0%N) (ell 0%N) (rv x 0%N) (gv x 0%N) (x 0%N)
    + \sum_(t < T) tGamma_t (nth p0 ps t) (u t.+1) (delta t.+1) (ell t.+1) (rv x t.+1) (gv x t.+1) (x t) (x t.+1)
    = c + chain_logpdf T m0 P0 F Q b x
      + \sum_(t < T.+1) (rv x t + gauss_logpdf (ell t / 2%:R)%:M (u t) (x t + (delta t / 2%:R) *: gv x t)).
Proof. exact: twisted_target_exact. Qed.
Print Assumptions C45_target_partial.

Theorem C45_target_refuted (u : nat -> 'cV[R]_1) (delta ell : nat -> R) : (forall t, 0 < ell t) ->
  let: (final, revs) := get_reversed_dynamics (0, 1%:M) [:: Dyn 1%:M 1%:M (1%:M : 'cV[R]_1)] in
  let: (p0, ps) := twisted_params final revs (mkseq u 2) (mkseq ell 2) in
  ~ exists c, forall x : nat -> 'cV[R]_1,
    tGamma_0 p0 (u 0%N) (delta 0%N) (ell 0%N) 0 0 (x 0%N) + tGamma_t (nth p0 ps 0) (u 1%N) (delta 1%N) (ell 1%N) 0 0 (x 0%N) (x 1%N)
    = c + chain_logpdf 1 0 1%:M (fun=> 1%:M) (fun=> 1%:M) (fun=> 1%:M) x + \sum_(t < 2) gauss_logpdf (ell t / 2%:R)%:M (u t) (x t).
Proof. exact: drift_target. Qed.
Print Assumptions C45_target_refuted.

(** The kernel leaves invariant the target whose prior is the law the proposals are
    conditionals of (last hypothesis).  States range over any finite abelian group standing
    for R^d; [law0 w], [law w x]: law of one proposed particle, [lpdf0], [lpdf] its log-density;
    [tparams]: the proposals as a function of all auxiliary variables. *)
Theorem C45_kernel_invariant_partial (X : finZmodType) (n' : nat) (Q W : Type)
    (noise0 ld0 : X -> R) (noise ld : Q -> X -> R) (scale0 : X -> X) (scale : Q -> X -> X)
    (tparams : X -> seq X -> W * seq W) (law0 lpdf0 : W -> X -> R) (law lpdf : W -> X -> X -> R)
    (prior0 : X -> R) (prior : X -> X -> Q -> R)
    (r0 : X -> R) (rt : X -> X -> Q -> R) (g0 : X -> X) (gt : X -> X -> Q -> X)
    (rs : resampler n'.+1) (mv : mover n'.+1) (key : key) qs (backward : bool) :
  prob_vec noise0 -> (forall q, prob_vec (noise q)) -> (forall w, prob_vec (law0 w)) -> (forall w x, prob_vec (law w x)) ->
  good_resampler rs ->
  (exists c, c != 0 /\ forall z, exp (ld0 z) = c * noise0 z) ->
  (forall q, exists c, c != 0 /\ forall z, exp (ld q z) = c * noise q z) ->
  (forall w, exists c, c != 0 /\ forall z, exp (lpdf0 w z) = c * law0 w z) ->
  (forall w, exists c, c != 0 /\ forall x z, exp (lpdf w x z) = c * law w x z) ->
  (forall u0 us, size us = size qs -> let: (w0, ws) := tparams u0 us in
    size ws = size qs /\ exists k, forall x0 xs, size xs = size qs ->
      lpdf0 w0 x0 + log_path (fun x y w => lpdf w x y) x0 xs ws
      = k + (prior0 x0 + log_path prior x0 xs qs)
        + (ld0 (u0 - x0) + log_path (fun _ y uq => ld uq.2 (uq.1 - y)) x0 xs (zip us qs))) ->
  good_mover mv ->
  leaves_invariant (size qs) (path_target (fun x => prior0 x + r0 x) (fun x y q => prior x y q + rt x y q) qs)
    (fun x0 xs b0 bs => drop_weights
       (tw_kernel noise0 ld0 noise ld scale0 scale tparams law0 lpdf0 law lpdf r0 rt g0 gt rs mv key x0 xs b0 bs qs backward)).
Proof. by move=> *; apply: tw_inv. Qed.
Print Assumptions C45_kernel_invariant_partial.

Theorem C45_kernel_force_move_error_partial (X : finZmodType) (n' : nat) (Q W : Type)
    (noise0 ld0 : X -> R) (noise ld : Q -> X -> R) (scale0 : X -> X) (scale : Q -> X -> X)
    (tparams : X -> seq X -> W * seq W) (law0 lpdf0 : W -> X -> R) (law lpdf : W -> X -> X -> R)
    (prior0 : X -> R) (prior : X -> X -> Q -> R)
    (r0 : X -> R) (rt : X -> X -> Q -> R) (g0 : X -> X) (gt : X -> X -> Q -> X)
    (rs : resampler n'.+1) (c : R) (key : key) qs (backward : bool) :
  prob_vec noise0 -> (forall q, prob_vec (noise q)) -> (forall w, prob_vec (law0 w)) -> (forall w x, prob_vec (law w x)) ->
  good_resampler rs ->
  (exists c, c != 0 /\ forall z, exp (ld0 z) = c * noise0 z) ->
  (forall q, exists c, c != 0 /\ forall z, exp (ld q z) = c * noise q z) ->
  (forall w, exists c, c != 0 /\ forall z, exp (lpdf0 w z) = c * law0 w z) ->
  (forall w, exists c, c != 0 /\ forall x z, exp (lpdf w x z) = c * law w x z) ->
  (forall u0 us, size us = size qs -> let: (w0, ws) := tparams u0 us in
    size ws = size qs /\ exists k, forall x0 xs, size xs = size qs ->
      lpdf0 w0 x0 + log_path (fun x y w => lpdf w x y) x0 xs ws
      = k + (prior0 x0 + log_path prior x0 xs qs)
        + (ld0 (u0 - x0) + log_path (fun _ y uq => ld uq.2 (uq.1 - y)) x0 xs (zip us qs))) ->
  nearly_invariant (size qs) (path_target (fun x => prior0 x + r0 x) (fun x y q => prior x y q + rt x y q) qs)
    (fun x0 xs b0 bs => drop_weights
       (tw_kernel noise0 ld0 noise ld scale0 scale tparams law0 lpdf0 law lpdf r0 rt g0 gt rs (@force_move _) key x0 xs b0 bs qs backward))
    c (force_eps n'.+1 c).
Proof. by move=> *; apply: tw_near. Qed.
Print Assumptions C45_kernel_force_move_error_partial.

(** The last hypothesis can be met: a random walk seen through flat noise. *)
Example ex_twisted_hypothesis (X : finZmodType) (Q : Type) (pl : Q -> X -> R) (q0 : Q) (qs : seq Q) u0 us :
  size us = size qs -> let: (w0, ws) := (fun (_ : X) (_ : seq X) => (q0, qs)) u0 us in
    size ws = size qs /\ exists k, forall x0 xs, size xs = size qs ->
      pl w0 x0 + log_path (fun x y w => pl w (y - x)) x0 xs ws
      = k + (pl q0 x0 + log_path (fun x y q => pl q (y - x)) x0 xs qs)
        + (0 + log_path (fun _ y uq => 0) x0 xs (zip us qs)).
Proof. exact: ex_tw_factor. Qed.

(** ** C16 and C29 for this kernel *)
Theorem C16_keys_t_atp (X : finZmodType) (n' : nat) (Q W : Type)
    (noise0 ld0 : X -> R) (noise ld : Q -> X -> R) (scale0 : X -> X) (scale : Q -> X -> X)
    (tparams : X -> seq X -> W * seq W) (law0 lpdf0 : W -> X -> R) (law lpdf : W -> X -> X -> R)
    (r0 : X -> R) (rt : X -> X -> Q -> R) (g0 : X -> X) (gt : X -> X -> Q -> X)
    (rs : resampler n'.+1) (mv : mover n'.+1) (key : key) x0 xs b0 bs qs (backward : bool) :
  (forall key w i j b, uses [:: key] (rs key w i j b)) -> (forall key w k, uses [:: key] (mv key w k)) ->
  uses [:: key] (tw_kernel noise0 ld0 noise ld scale0 scale tparams law0 lpdf0 law lpdf r0 rt g0 gt rs mv key x0 xs b0 bs qs backward).
Proof. exact: uses_tw. Qed.
Print Assumptions C16_keys_t_atp.

(** This kernel runs csmc.kernel, for which C12 gives the particle system. *)
Theorem C29_shapes_t_atp (X : finZmodType) (n' : nat) (Q W : Type)
    (noise0 ld0 : X -> R) (noise ld : Q -> X -> R) (scale0 : X -> X) (scale : Q -> X -> X)
    (tparams : X -> seq X -> W * seq W) (law0 lpdf0 : W -> X -> R) (law lpdf : W -> X -> X -> R)
    (r0 : X -> R) (rt : X -> X -> Q -> R) (g0 : X -> X) (gt : X -> X -> Q -> X)
    (rs : resampler n'.+1) (mv : mover n'.+1) (key : key) x0 xs b0 bs qs (backward : bool) :
  (forall key w i j, always (fun A : {ffun 'I_n'.+1 -> 'I_n'.+1} => A j = i) (rs key w i j true)) ->
  (forall u0 us, size (tparams u0 us).2 = size us) ->
  size bs = size qs -> size xs = size qs ->
  always (keeps_shape x0 xs b0 bs)
    (tw_kernel noise0 ld0 noise ld scale0 scale tparams law0 lpdf0 law lpdf r0 rt g0 gt rs mv key x0 xs b0 bs qs backward).
Proof. exact: tw_shape. Qed.
Print Assumptions C29_shapes_t_atp.
