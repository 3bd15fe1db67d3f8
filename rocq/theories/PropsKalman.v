(** * Property theorems C38: utils/kalman.  Statements only; the proofs are in CholProofs,
    KalmanProofs and KalmanPaths. *)
From Coq Require Import Reals.
From mathcomp Require Import all_ssreflect all_algebra.
From Verif Require Import RInst Gauss GaussSpec MarginalFinal Kalman KalmanSpec CholProofs KalmanProofs KalmanPaths.

Set Implicit Arguments.
Unset Strict Implicit.
Unset Printing Implicit Defensive.
Import GRing.Theory Num.Theory Order.TTheory.
Local Open Scope ring_scope.

(** ** C38 *)
(** [spd]: symmetric positive definite. *)
Theorem C38_update (dx dy : nat) (P : 'M[R]_dx) (Rc : 'M[R]_dy) (H : 'M[R]_(dy, dx)) (c : 'cV[R]_dy) (m : 'cV[R]_dx) (y : 'cV[R]_dy) :
  spd P -> spd Rc ->
  let: (m', P', ell) := sequential_update y m P H c Rc in
  spd P' /\ forall x, gauss_logpdf P x m + gauss_logpdf Rc y (H *m x + c) = ell + gauss_logpdf P' x m'.
Proof. exact: pair_exact. Qed.
Print Assumptions C38_update.

(** The predicted law is the marginal of x': the remaining factor is a density in x. *)
Theorem C38_predict (dx : nat) (P Q F : 'M[R]_dx) (b m : 'cV[R]_dx) : spd P -> spd Q ->
  let: (m', P') := sequential_predict m P F b Q in
  spd P' /\ exists (A C : 'M[R]_dx) (a : 'cV[R]_dx), spd C /\ forall x x',
    gauss_logpdf P x m + gauss_logpdf Q x' (F *m x + b) = gauss_logpdf P' x' m' + gauss_logpdf C x (A *m x' + a).
Proof. exact: predict_exact. Qed.
Print Assumptions C38_predict.

(** The whole filter, for T + 1 observations ([first] = 0) or T ([first] = 1): the joint density
    of states and observations is the returned likelihood times a backward chain of
    conditional densities; the sampler draws from that chain; the smoother returns its
    marginal means and covariances. *)
Theorem C38_filter_sampler_smoother (dx dy T : nat) (m0 : 'cV[R]_dx) (P0 : 'M[R]_dx) (F Q : nat -> 'M[R]_dx) (b : nat -> 'cV[R]_dx)
    (H : nat -> 'M[R]_(dy, dx)) (Rc : nat -> 'M[R]_dy) (c y : nat -> 'cV[R]_dy) (first : nat) :
  spd P0 -> (forall t, spd (Q t)) -> (forall t, spd (Rc t)) -> (first <= 1)%N ->
  let fs := [seq Dyn (F t) (Q t) (b t) | t <- iota 0 T] in
  let os := [seq Obs (H t) (Rc t) (c t) (y t) | t <- iota first (T.+1 - first)] in
  let: (filt, ell) := filtering os m0 P0 fs in
  exists (A C : nat -> 'M[R]_dx) (a : nat -> 'cV[R]_dx),
  [/\ size filt = T.+1 /\ nth (0, 0) filt T = (a T, C T),
      forall t, (t <= T)%N -> spd (C t),
      forall x, chain_logpdf T m0 P0 F Q b x + obs_logpdf T H Rc c y first x
        = ell + gauss_logpdf (C T) (x T) (a T) + \sum_(t < T) gauss_logpdf (C t) (x t) (A t *m x t.+1 + a t),
      forall eps, let s := sampling (mkseq eps T.+1) filt fs in
        [/\ size s = T.+1, nth 0 s T = a T + cholesky (C T) *m eps 0%N
          & forall t, (t < T)%N -> nth 0 s t = A t *m nth 0 s t.+1 + a t + cholesky (C t) *m eps t.+1]
    & let s := smoothing filt fs in
        [/\ size s = T.+1, nth (0, 0) s T = (a T, C T)
          & forall t, (t < T)%N -> nth (0, 0) s t =
              (A t *m (nth (0, 0) s t.+1).1 + a t, A t *m (nth (0, 0) s t.+1).2 *m (A t)^T + C t)]].
Proof. exact: posterior_exact. Qed.
Print Assumptions C38_filter_sampler_smoother.

(** A draw through the factor of a covariance has the Gaussian density: standard density of the
    noise over the determinant of the factor. *)
Theorem C38_draw (d : nat) (C : 'M[R]_d) (m e : 'cV[R]_d) : spd C ->
  gauss_logpdf C (m + cholesky C *m e) m = std_logpdf e - ln (\det C) / 2%:R.
Proof. exact: draw_density. Qed.
Print Assumptions C38_draw.

(** The smoothed law is the marginal of x_t when x_{t+1} ~ N(m', P') and x_t given x_{t+1} is N(A x_{t+1} + a, C). *)
Theorem C38_smoothed_marginal (dx : nat) (A C P' : 'M[R]_dx) (a m' : 'cV[R]_dx) : spd P' -> spd C ->
  spd (A *m P' *m A^T + C) /\ exists (B D : 'M[R]_dx) (e : 'cV[R]_dx), spd D /\ forall x x',
    gauss_logpdf P' x' m' + gauss_logpdf C x (A *m x' + a) = gauss_logpdf (A *m P' *m A^T + C) x (A *m m' + a) + gauss_logpdf D x' (B *m x + e).
Proof. exact: smooth_exact. Qed.
Print Assumptions C38_smoothed_marginal.

Theorem C38_prior_sampling (dx T : nat) (F Q : nat -> 'M[R]_dx) (b : nat -> 'cV[R]_dx) m0 P0 (eps : nat -> 'cV[R]_dx) :
  let s := prior_sampling (mkseq eps T.+1) m0 P0 [seq Dyn (F t) (Q t) (b t) | t <- iota 0 T] in
  [/\ size s = T.+1, nth 0 s 0 = m0 + cholesky P0 *m eps 0%N
    & forall t, (t < T)%N -> nth 0 s t.+1 = F t *m nth 0 s t + b t + cholesky (Q t) *m eps t.+1].
Proof. exact: prior_samplingE. Qed.
Print Assumptions C38_prior_sampling.

(** The factor used throughout: lower triangular, positive diagonal, and the only such one. *)
Theorem C38_cholesky (n : nat) (A L : 'M[R]_n) : spd A ->
  (is_trig_mx L /\ (forall i, 0 < L i i) /\ L *m L^T = A) <-> L = cholesky A.
Proof. exact: cholesky_iff. Qed.
Print Assumptions C38_cholesky.

(** ** The hypotheses are met *)
Example ex_spd (d : nat) : spd (1%:M : 'M[R]_d).
Proof. exact: ex_pos. Qed.
