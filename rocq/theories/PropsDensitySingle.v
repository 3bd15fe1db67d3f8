(** * Property theorem C59: mala.py, tp.py and imh.py on real vectors, given the current state and all
    proposals.  Statements only; the proofs are in DensitySingle. *)
From Coq Require Import Reals.
From mathcomp Require Import all_ssreflect all_algebra.
From Verif Require Import RInst Prog Resampling Spec CsmcInvariance Gauss GaussSpec Kalman KalmanSpec.
From Verif Require Import SingleSpec SingleProofs SingleFinal AuxFinal DensitySpec SingleReal DensitySingle Integral.

Set Implicit Arguments.
Unset Strict Implicit.
Unset Printing Implicit Defensive.
Import GRing.Theory Num.Theory Order.TTheory.
Local Open Scope ring_scope.

(** ** C59 *)
(** mala.py, auxiliary style.  Given the auxiliary variable u and the points y. *)
Theorem C59_mala_auxiliary_density (d N : nat) (log_pdf : 'cV[R]_d -> R) (grad : 'cV[R]_d -> 'cV[R]_d) (delta : R)
    (mv : mover N.+1) (key : key) (u : 'cV[R]_d) (y : {ffun 'I_N.+1 -> 'cV[R]_d}) :
  0 < delta -> relabels mv ->
  let kern b := E (mala_vec log_pdf grad mv delta key true u y b) in
  (good_mover mv -> keeps_points y (fun x => exp (log_pdf x))
    (fun b => exp (gauss_kernel (delta / 2%:R)%:M u (y b + (delta / 2%:R) *: grad (y b)))
              * \prod_(i | i != b) exp (gauss_kernel (delta / 2%:R)%:M (y i) u)) kern) /\
  (reversible_mover mv -> reversible_points y (fun x => exp (log_pdf x)) kern).
Proof. by move=> *; apply: mala_aux_points. Qed.
Print Assumptions C59_mala_auxiliary_density.

(** mala.py, marginal style.  Given the points y, u being integrated out. *)
Theorem C59_mala_marginal_density (d N : nat) (log_pdf : 'cV[R]_d -> R) (grad : 'cV[R]_d -> 'cV[R]_d) (delta : R)
    (mv : mover N.+1) (key : key) (y : {ffun 'I_N.+1 -> 'cV[R]_d}) (I : ('cV[R]_d -> R) -> R) :
  0 < delta -> translation_invariant I -> relabels mv ->
  let kern b f := I (fun u => E (mala_vec log_pdf grad mv delta key false u y b) f) in
  (good_mover mv -> keeps_points y (fun x => exp (log_pdf x))
    (fun b => I (fun u => exp (gauss_kernel (delta / 2%:R)%:M u (y b + (delta / 2%:R) *: grad (y b)))
              * \prod_(i | i != b) exp (gauss_kernel (delta / 2%:R)%:M (y i) u))) kern) /\
  (reversible_mover mv -> reversible_points y (fun x => exp (log_pdf x)) kern).
Proof. by move=> *; apply: mala_marg_points. Qed.
Print Assumptions C59_mala_marginal_density.

(** tp.py.  Given u and the trajectories y, obtained from the noises [e (y i)] by the Kalman sampler of
    the code run on u.  The target is the linear Gaussian prior times exp log_pdf. *)
Theorem C59_tp_density (d T N : nat) (log_pdf : {ffun 'I_T.+1 -> 'cV[R]_d} -> R) (grad : {ffun 'I_T.+1 -> 'cV[R]_d} -> {ffun 'I_T.+1 -> 'cV[R]_d})
    (delta : R) (mv : mover N.+1) (key : key) (m0 : 'cV[R]_d) (P0 : 'M[R]_d) (F Q : nat -> 'M[R]_d) (b : nat -> 'cV[R]_d)
    (u : {ffun 'I_T.+1 -> 'cV[R]_d}) e (y : {ffun 'I_N.+1 -> {ffun 'I_T.+1 -> 'cV[R]_d}}) :
  0 < delta -> spd P0 -> (forall t, spd (Q t)) -> (forall i, kalman_draw delta m0 P0 F Q b u (e (y i)) = y i) ->
  relabels mv ->
  let kern i := E (tp1_traj log_pdf grad mv delta key m0 P0 F Q b u e y i) in
  let target x := exp (chain_logpdf T m0 P0 F Q b (at_time x)) * exp (log_pdf x) in
  (good_mover mv -> keeps_points y target
    (fun b => exp (\sum_t gauss_kernel (delta / 2%:R)%:M (u t) (y b t + (delta / 2%:R) *: grad (y b) t))
              * \prod_(i | i != b) exp (\sum_t std_logpdf (e (y i) t))) kern) /\
  (reversible_mover mv -> reversible_points y target kern).
Proof. by move=> *; apply: tp1_points. Qed.
Print Assumptions C59_tp_density.

(** The sampler reaches every trajectory, and the density of its noise is the density of
    the posterior of the trajectory given u ~ N(x, delta/2 I), up to a factor. *)
Theorem C59_tp_noise (d T : nat) (delta : R) (m0 : 'cV[R]_d) (P0 : 'M[R]_d) (F Q : nat -> 'M[R]_d) (b : nat -> 'cV[R]_d)
    (u : {ffun 'I_T.+1 -> 'cV[R]_d}) : 0 < delta -> spd P0 -> (forall t, spd (Q t)) ->
  exists2 k, 0 < k &
  (forall e, let x := kalman_draw delta m0 P0 F Q b u e in exp (\sum_t std_logpdf (e t))
     = k * exp (chain_logpdf T m0 P0 F Q b (at_time x) + \sum_t gauss_logpdf (delta / 2%:R)%:M (u t) (x t))) /\
  (forall x, exists e, kalman_draw delta m0 P0 F Q b u e = x).
Proof. by move=> *; apply: kalman_posterior. Qed.
Print Assumptions C59_tp_noise.

(** imh.py, for states of any type: [prior] is the density of the proposals. *)
Theorem C59_imh_density (X : Type) (N : nat) (log_pdf prior : X -> R) (mv : mover N.+1) (key : key) (y : {ffun 'I_N.+1 -> X}) :
  (forall x, 0 <= prior x) -> relabels mv ->
  let kern b := E (imh_obs log_pdf mv key prior y b) in
  (good_mover mv -> keeps_points y (fun x => prior x * exp (log_pdf x)) (fun b => \prod_(i | i != b) prior (y i)) kern) /\
  (reversible_mover mv -> reversible_points y (fun x => prior x * exp (log_pdf x)) kern).
Proof. by move=> *; apply: imh_points. Qed.
Print Assumptions C59_imh_density.

(** With [force_move], which the code uses (C30_code_moves: [barker_move] meets the conditions above). *)
Theorem C59_mala_auxiliary_error (d N : nat) (log_pdf : 'cV[R]_d -> R) (grad : 'cV[R]_d -> 'cV[R]_d) (delta : R)
    (key : key) (u : 'cV[R]_d) (y : {ffun 'I_N.+1 -> 'cV[R]_d}) (c : R) : 0 < delta ->
  nearly_keeps_points y (fun x => exp (log_pdf x))
    (fun b => exp (gauss_kernel (delta / 2%:R)%:M u (y b + (delta / 2%:R) *: grad (y b)))
              * \prod_(i | i != b) exp (gauss_kernel (delta / 2%:R)%:M (y i) u))
    (fun b => E (mala_vec log_pdf grad (@force_move _) delta key true u y b)) c (force_eps N.+1 c).
Proof. by move=> *; apply: mala_aux_near. Qed.
Print Assumptions C59_mala_auxiliary_error.

Theorem C59_mala_marginal_error (d N : nat) (log_pdf : 'cV[R]_d -> R) (grad : 'cV[R]_d -> 'cV[R]_d) (delta : R)
    (key : key) (y : {ffun 'I_N.+1 -> 'cV[R]_d}) (I : ('cV[R]_d -> R) -> R) (c : R) :
  0 < delta -> translation_invariant I -> (forall g, (forall u, 0 <= g u) -> 0 <= I g) ->
  nearly_keeps_points y (fun x => exp (log_pdf x))
    (fun b => I (fun u => exp (gauss_kernel (delta / 2%:R)%:M u (y b + (delta / 2%:R) *: grad (y b)))
              * \prod_(i | i != b) exp (gauss_kernel (delta / 2%:R)%:M (y i) u)))
    (fun b f => I (fun u => E (mala_vec log_pdf grad (@force_move _) delta key false u y b) f)) c (force_eps N.+1 c).
Proof. by move=> *; apply: mala_marg_near. Qed.
Print Assumptions C59_mala_marginal_error.

Theorem C59_tp_error (d T N : nat) (log_pdf : {ffun 'I_T.+1 -> 'cV[R]_d} -> R) (grad : {ffun 'I_T.+1 -> 'cV[R]_d} -> {ffun 'I_T.+1 -> 'cV[R]_d})
    (delta : R) (key : key) (m0 : 'cV[R]_d) (P0 : 'M[R]_d) (F Q : nat -> 'M[R]_d) (b : nat -> 'cV[R]_d)
    (u : {ffun 'I_T.+1 -> 'cV[R]_d}) e (y : {ffun 'I_N.+1 -> {ffun 'I_T.+1 -> 'cV[R]_d}}) (c : R) :
  0 < delta -> spd P0 -> (forall t, spd (Q t)) -> (forall i, kalman_draw delta m0 P0 F Q b u (e (y i)) = y i) ->
  nearly_keeps_points y (fun x => exp (chain_logpdf T m0 P0 F Q b (at_time x)) * exp (log_pdf x))
    (fun b => exp (\sum_t gauss_kernel (delta / 2%:R)%:M (u t) (y b t + (delta / 2%:R) *: grad (y b) t))
              * \prod_(i | i != b) exp (\sum_t std_logpdf (e (y i) t)))
    (fun i => E (tp1_traj log_pdf grad (@force_move _) delta key m0 P0 F Q b u e y i)) c (force_eps N.+1 c).
Proof. by move=> *; apply: tp1_near. Qed.
Print Assumptions C59_tp_error.

Theorem C59_imh_error (X : Type) (N : nat) (log_pdf prior : X -> R) (key : key) (y : {ffun 'I_N.+1 -> X}) (c : R) :
  (forall x, 0 <= prior x) ->
  nearly_keeps_points y (fun x => prior x * exp (log_pdf x)) (fun b => \prod_(i | i != b) prior (y i))
    (fun b => E (imh_obs log_pdf (@force_move _) key prior y b)) c (force_eps N.+1 c).
Proof. by move=> *; apply: imh_near. Qed.
Print Assumptions C59_imh_error.

(** The noises of given trajectories exist. *)
Example ex_noises (d T N : nat) (delta : R) (u : {ffun 'I_T.+1 -> 'cV[R]_d}) (y : {ffun 'I_N.+1 -> {ffun 'I_T.+1 -> 'cV[R]_d}}) :
  0 < delta -> exists e, forall i,
  kalman_draw delta 0 1%:M (fun=> 1%:M) (fun=> 1%:M) (fun=> 0) u (e (y i)) = y i.
Proof. exact: noises_exist. Qed.
