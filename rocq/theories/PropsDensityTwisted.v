(** * Property theorem C58: t_atp_csmc_f.py on R^d, given all particles, with ancestor tracing.
    Statements only; the proofs are in DensityTwisted. *)
From Coq Require Import Reals.
From mathcomp Require Import all_ssreflect all_algebra.
From Verif Require Import RInst Prog Resampling Spec Csmc CsmcInvariance Gauss GaussSpec Kalman KalmanSpec.
From Verif Require Import DensitySpec DensityModel Twisted TwistedProofs TwistedReal DensityTwisted.

Set Implicit Arguments.
Unset Strict Implicit.
Unset Printing Implicit Defensive.
Import GRing.Theory Num.Theory Order.TTheory.
Local Open Scope ring_scope.

(** ** C58 *)
(** Given the auxiliary variables u_t and all particles.  The target is the density of the prior
    chain, times exp of the potentials, times the densities of u_t ~ N(x_t + delta_t/2 grad, ell_t/2 I).
    The other particles have the densities of the samplers of the code, N(A x + c, chol chol').
    Full statement: without the condition on F, which makes the reversed dynamics of the code the
    reversal of the prior (C39).  It is false: the potentials of the code do not multiply up to this
    target, see C45_target_refuted. *)
Theorem C58_t_atp_density_partial (d n' T : nat) (Q : Type)
    (r0 : 'cV[R]_d -> R) (rt : 'cV[R]_d -> 'cV[R]_d -> Q -> R)
    (g0 : 'cV[R]_d -> 'cV[R]_d) (gt : 'cV[R]_d -> 'cV[R]_d -> Q -> 'cV[R]_d)
    (m0 : 'cV[R]_d) (P0 : 'M[R]_d) (F Qm : nat -> 'M[R]_d) (b u : nat -> 'cV[R]_d) (delta ell : nat -> R) (q : nat -> Q)
    (rs : resampler n'.+1) (mv : mover n'.+1) (key : key) (y0 : {ffun 'I_n'.+1 -> 'cV[R]_d}) ys :
  spd P0 -> (forall t, spd (Qm t)) -> (forall t, 0 < ell t) ->
  (forall t, (t < T)%N -> let P := cov_at P0 F Qm t in let m := mean_at m0 F b t in
     [/\ F t *m P = P *m (F t)^T, (F t)^T *m P *m F t = F t *m P *m (F t)^T
       & (F t)^T *m m - (F t)^T *m b t = F t *m m + b t]) ->
  good_resampler rs -> size ys = T -> good_mover mv ->
  let: (final, revs) := get_reversed_dynamics (m0, P0) [seq Dyn (F t) (Qm t) (b t) | t <- iota 0 T] in
  let: (p0, ps) := twisted_params final revs (mkseq u T.+1) (mkseq ell T.+1) in
  forall rvs0 rvs, csmc_keeps (tw_vec r0 rt g0 gt (delta 0%N, ell 0%N) p0 (u 0%N) rvs0 rvs)
    (fun b y => \prod_(i | i != b) exp (gauss_kernel (t_chol p0 *m (t_chol p0)^T) (y i) (tc p0)))
    (fun p xm b y => \prod_(i | i != b) exp (gauss_kernel (t_chol p *m (t_chol p)^T) (y i) (tA p *m xm i + tc p)))
    rs mv
    (path_target
      (fun x => gauss_logpdf P0 x m0 + r0 x + gauss_logpdf (ell 0%N / 2%:R)%:M (u 0%N) (x + (delta 0%N / 2%:R) *: g0 x))
      (fun x x' t => gauss_logpdf (Qm t) x' (F t *m x + b t) + rt x x' (q t.+1)
         + gauss_logpdf (ell t.+1 / 2%:R)%:M (u t.+1) (x' + (delta t.+1 / 2%:R) *: gt x x' (q t.+1))) (iota 0 T))
    key ps (zip (zip [seq u t.+1 | t <- iota 0 T] [seq (delta t.+1, ell t.+1, q t.+1) | t <- iota 0 T]) ps) y0 ys.
Proof. by move=> *; apply: tw_keeps. Qed.
Print Assumptions C58_t_atp_density_partial.

Theorem C58_t_atp_force_move_error_partial (d n' T : nat) (Q : Type)
    (r0 : 'cV[R]_d -> R) (rt : 'cV[R]_d -> 'cV[R]_d -> Q -> R)
    (g0 : 'cV[R]_d -> 'cV[R]_d) (gt : 'cV[R]_d -> 'cV[R]_d -> Q -> 'cV[R]_d)
    (m0 : 'cV[R]_d) (P0 : 'M[R]_d) (F Qm : nat -> 'M[R]_d) (b u : nat -> 'cV[R]_d) (delta ell : nat -> R) (q : nat -> Q)
    (rs : resampler n'.+1) (key : key) (y0 : {ffun 'I_n'.+1 -> 'cV[R]_d}) ys c :
  spd P0 -> (forall t, spd (Qm t)) -> (forall t, 0 < ell t) ->
  (forall t, (t < T)%N -> let P := cov_at P0 F Qm t in let m := mean_at m0 F b t in
     [/\ F t *m P = P *m (F t)^T, (F t)^T *m P *m F t = F t *m P *m (F t)^T
       & (F t)^T *m m - (F t)^T *m b t = F t *m m + b t]) ->
  good_resampler rs -> size ys = T ->
  let: (final, revs) := get_reversed_dynamics (m0, P0) [seq Dyn (F t) (Qm t) (b t) | t <- iota 0 T] in
  let: (p0, ps) := twisted_params final revs (mkseq u T.+1) (mkseq ell T.+1) in
  forall rvs0 rvs, csmc_nearly_keeps (tw_vec r0 rt g0 gt (delta 0%N, ell 0%N) p0 (u 0%N) rvs0 rvs)
    (fun b y => \prod_(i | i != b) exp (gauss_kernel (t_chol p0 *m (t_chol p0)^T) (y i) (tc p0)))
    (fun p xm b y => \prod_(i | i != b) exp (gauss_kernel (t_chol p *m (t_chol p)^T) (y i) (tA p *m xm i + tc p)))
    rs (@force_move _)
    (path_target
      (fun x => gauss_logpdf P0 x m0 + r0 x + gauss_logpdf (ell 0%N / 2%:R)%:M (u 0%N) (x + (delta 0%N / 2%:R) *: g0 x))
      (fun x x' t => gauss_logpdf (Qm t) x' (F t *m x + b t) + rt x x' (q t.+1)
         + gauss_logpdf (ell t.+1 / 2%:R)%:M (u t.+1) (x' + (delta t.+1 / 2%:R) *: gt x x' (q t.+1))) (iota 0 T))
    key ps (zip (zip [seq u t.+1 | t <- iota 0 T] [seq (delta t.+1, ell t.+1, q t.+1) | t <- iota 0 T]) ps) y0 ys
    c (force_eps n'.+1 c).
Proof. by move=> *; apply: tw_nearly. Qed.
Print Assumptions C58_t_atp_force_move_error_partial.

(** The condition is met at every time by F_t = a_t I without drift. *)
Example ex_scalar_chain (d : nat) (a : nat -> R) (P0 : 'M[R]_d) (Qm : nat -> 'M[R]_d) (t : nat) :
  let F t := (a t)%:M in let b t := 0 : 'cV[R]_d in
  let P := cov_at P0 F Qm t in let m := mean_at 0 F b t in
  [/\ F t *m P = P *m (F t)^T, (F t)^T *m P *m F t = F t *m P *m (F t)^T
    & (F t)^T *m m - (F t)^T *m b t = F t *m m + b t].
Proof. exact: ex_chain. Qed.
