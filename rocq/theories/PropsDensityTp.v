(** * Property theorems C56 and C57: tp_csmc.py and atp_csmc_f.py on R^d, given all particles, with
    ancestor tracing.  Statements only; the proofs are in DensityTp and DensityAtp. *)
From Coq Require Import Reals.
From mathcomp Require Import all_ssreflect all_algebra.
From Verif Require Import RInst Prog Resampling Spec Csmc CsmcInvariance Gauss GaussSpec.
From Verif Require Import DensitySpec DensityModel TpReal ProposalProofs DensityTp DensityAtp Integral.

Set Implicit Arguments.
Unset Strict Implicit.
Unset Printing Implicit Defensive.
Import GRing.Theory Num.Theory Order.TTheory.
Local Open Scope ring_scope.

(** ** C56 *)
(** tp_csmc.py on R^d.  The target is N(x_0; mu0, P0) exp(r0 x_0) times the product of
    N(x_t; mut x_(t-1), Q_t) exp(rt x_(t-1) x_t); given u_t ~ N(reference + delta/2 grad, ell/2 I), the other
    particles are drawn from the posteriors N(mu_t, Q_t | u_t), and u_t is integrated out. *)
Theorem C56_tp_density (d n' : nat) (Q : Type) (rs : resampler n'.+1) (mv : mover n'.+1)
    (mu0 : 'cV[R]_d) (mut : 'cV[R]_d -> Q -> 'cV[R]_d)
    (r0 : 'cV[R]_d -> R) (rt : 'cV[R]_d -> 'cV[R]_d -> Q -> R)
    (g0 : 'cV[R]_d -> 'cV[R]_d) (gt : 'cV[R]_d -> 'cV[R]_d -> Q -> 'cV[R]_d) (I : ('cV[R]_d -> R) -> R)
    (s0 : step d Q) (ss : seq (step d Q)) (key : key) us rvs0 rvs (y0 : {ffun 'I_n'.+1 -> 'cV[R]_d}) ys :
  translation_invariant I -> (forall g, (forall u, 0 <= g u) -> 0 <= I g) ->
  step_ok s0 -> (forall s, List.In s ss -> step_ok s) -> good_resampler rs ->
  size us = size ss -> size ys = size ss -> good_mover mv ->
  csmc_keeps (tp_vec mu0 mut r0 rt g0 gt s0 rvs0 rvs)
    (fun b y => others_marg I (st_Q s0) (st_ell s0 / 2%:R) (fun=> mu0) ((st_delta s0 / 2%:R) *: g0 (y b)) y b)
    (fun p xm b y => others_marg I (st_Q p.2) (st_ell p.2 / 2%:R) (fun i => mut (xm i) (st_q p.2))
       ((st_delta p.2 / 2%:R) *: gt (xm b) (y b) (st_q p.2)) y b)
    rs mv
    (path_target (fun x => gauss_kernel (st_Q s0) x mu0 + r0 x)
      (fun xm x s => gauss_kernel (st_Q s) x (mut xm (st_q s)) + rt xm x (st_q s)) ss)
    key (zip us ss) ss y0 ys.
Proof. by move=> *; apply: tp_keeps. Qed.
Print Assumptions C56_tp_density.

Theorem C56_tp_force_move_error (d n' : nat) (Q : Type) (rs : resampler n'.+1)
    (mu0 : 'cV[R]_d) (mut : 'cV[R]_d -> Q -> 'cV[R]_d)
    (r0 : 'cV[R]_d -> R) (rt : 'cV[R]_d -> 'cV[R]_d -> Q -> R)
    (g0 : 'cV[R]_d -> 'cV[R]_d) (gt : 'cV[R]_d -> 'cV[R]_d -> Q -> 'cV[R]_d) (I : ('cV[R]_d -> R) -> R)
    (s0 : step d Q) (ss : seq (step d Q)) (key : key) us rvs0 rvs (y0 : {ffun 'I_n'.+1 -> 'cV[R]_d}) ys c :
  translation_invariant I -> (forall g, (forall u, 0 <= g u) -> 0 <= I g) ->
  step_ok s0 -> (forall s, List.In s ss -> step_ok s) -> good_resampler rs ->
  size us = size ss -> size ys = size ss ->
  csmc_nearly_keeps (tp_vec mu0 mut r0 rt g0 gt s0 rvs0 rvs)
    (fun b y => others_marg I (st_Q s0) (st_ell s0 / 2%:R) (fun=> mu0) ((st_delta s0 / 2%:R) *: g0 (y b)) y b)
    (fun p xm b y => others_marg I (st_Q p.2) (st_ell p.2 / 2%:R) (fun i => mut (xm i) (st_q p.2))
       ((st_delta p.2 / 2%:R) *: gt (xm b) (y b) (st_q p.2)) y b)
    rs (@force_move _)
    (path_target (fun x => gauss_kernel (st_Q s0) x mu0 + r0 x)
      (fun xm x s => gauss_kernel (st_Q s) x (mut xm (st_q s)) + rt xm x (st_q s)) ss)
    key (zip us ss) ss y0 ys c (force_eps n'.+1 c).
Proof. by move=> *; apply: tp_nearly. Qed.
Print Assumptions C56_tp_force_move_error.

(** The conditions on the integral are met, by one that is positive on Gaussian densities
    ([ex_integral] in PropsGauss). *)
Example ex_integral_tp (d : nat) : exists I : ('cV[R]_d -> R) -> R,
  translation_invariant I /\ forall g, (forall u, 0 <= g u) -> 0 <= I g.
Proof. by have [I [h1 h2 _]] := integral_exists d; exists I. Qed.
(** [step_ok] is met, also by covariances that are not diagonal. *)
Example ex_step_ok (Q : Type) (q : Q) : step_ok (step_w q) /\ st_Q (step_w q) <> diag_mx (st_G (step_w q)).
Proof. by split; [exact: step_w_ok|exact: step_w_rot]. Qed.

(** ** C57 *)
(** atp_csmc_f.py on R^d, given the auxiliary variables too.  Full statement: C57_atp_density_partial
    without [st_Q s = diag_mx (st_G s)].  It is false: see C57_atp_density_refuted. *)
Theorem C57_atp_density_partial (d n' : nat) (Q : Type) (rs : resampler n'.+1) (mv : mover n'.+1)
    (mu0 : 'cV[R]_d) (mut : 'cV[R]_d -> Q -> 'cV[R]_d)
    (r0 : 'cV[R]_d -> R) (rt : 'cV[R]_d -> 'cV[R]_d -> Q -> R)
    (g0 : 'cV[R]_d -> 'cV[R]_d) (gt : 'cV[R]_d -> 'cV[R]_d -> Q -> 'cV[R]_d)
    (s0 : step d Q) (ss : seq (step d Q)) (key : key) u0 us rvs0 rvs (y0 : {ffun 'I_n'.+1 -> 'cV[R]_d}) ys :
  (forall s, List.In s (s0 :: ss) -> step_ok s /\ st_Q s = diag_mx (st_G s)) -> good_resampler rs ->
  size us = size ss -> size ys = size ss -> good_mover mv ->
  csmc_keeps (atp_vec mu0 mut r0 rt g0 gt s0 u0 rvs0 rvs)
    (fun b y => others_given (st_Q s0) (st_ell s0 / 2%:R) (fun=> mu0) u0 y b)
    (fun p xm b y => others_given (st_Q p.2) (st_ell p.2 / 2%:R) (fun i => mut (xm i) (st_q p.2)) p.1 y b)
    rs mv
    (path_target (fun x => gauss_kernel (st_Q s0) x mu0 + r0 x
        + gauss_kernel (st_ell s0 / 2%:R)%:M u0 (x + (st_delta s0 / 2%:R) *: g0 x))
      (fun xm x p => gauss_kernel (st_Q p.2) x (mut xm (st_q p.2)) + rt xm x (st_q p.2)
        + gauss_kernel (st_ell p.2 / 2%:R)%:M p.1 (x + (st_delta p.2 / 2%:R) *: gt xm x (st_q p.2))) (zip us ss))
    key (zip us ss) (zip us ss) y0 ys.
Proof. by move=> H *; apply: atp_keeps => //; [apply: H; left|move=> s is_; apply: H; right]. Qed.
Print Assumptions C57_atp_density_partial.

Theorem C57_atp_force_move_error_partial (d n' : nat) (Q : Type) (rs : resampler n'.+1)
    (mu0 : 'cV[R]_d) (mut : 'cV[R]_d -> Q -> 'cV[R]_d)
    (r0 : 'cV[R]_d -> R) (rt : 'cV[R]_d -> 'cV[R]_d -> Q -> R)
    (g0 : 'cV[R]_d -> 'cV[R]_d) (gt : 'cV[R]_d -> 'cV[R]_d -> Q -> 'cV[R]_d)
    (s0 : step d Q) (ss : seq (step d Q)) (key : key) u0 us rvs0 rvs (y0 : {ffun 'I_n'.+1 -> 'cV[R]_d}) ys c :
  (forall s, List.In s (s0 :: ss) -> step_ok s /\ st_Q s = diag_mx (st_G s)) -> good_resampler rs ->
  size us = size ss -> size ys = size ss ->
  csmc_nearly_keeps (atp_vec mu0 mut r0 rt g0 gt s0 u0 rvs0 rvs)
    (fun b y => others_given (st_Q s0) (st_ell s0 / 2%:R) (fun=> mu0) u0 y b)
    (fun p xm b y => others_given (st_Q p.2) (st_ell p.2 / 2%:R) (fun i => mut (xm i) (st_q p.2)) p.1 y b)
    rs (@force_move _)
    (path_target (fun x => gauss_kernel (st_Q s0) x mu0 + r0 x
        + gauss_kernel (st_ell s0 / 2%:R)%:M u0 (x + (st_delta s0 / 2%:R) *: g0 x))
      (fun xm x p => gauss_kernel (st_Q p.2) x (mut xm (st_q p.2)) + rt xm x (st_q p.2)
        + gauss_kernel (st_ell p.2 / 2%:R)%:M p.1 (x + (st_delta p.2 / 2%:R) *: gt xm x (st_q p.2))) (zip us ss))
    key (zip us ss) (zip us ss) y0 ys c (force_eps n'.+1 c).
Proof. by move=> H *; apply: atp_nearly => //; [apply: H; left|move=> s is_; apply: H; right]. Qed.
Print Assumptions C57_atp_force_move_error_partial.

(** With one time step and at least two particles the condition is also necessary. *)
Theorem C57_atp_density_iff (d n' : nat) (Q : Type) (rs : resampler n'.+2)
    (mu0 : 'cV[R]_d) (mut : 'cV[R]_d -> Q -> 'cV[R]_d)
    (r0 : 'cV[R]_d -> R) (rt : 'cV[R]_d -> 'cV[R]_d -> Q -> R)
    (g0 : 'cV[R]_d -> 'cV[R]_d) (gt : 'cV[R]_d -> 'cV[R]_d -> Q -> 'cV[R]_d)
    (s0 : step d Q) (key : key) rvs0 rvs :
  step_ok s0 -> good_resampler rs ->
  (forall u0 y0, csmc_keeps (atp_vec mu0 mut r0 rt g0 gt s0 u0 rvs0 rvs)
      (fun b y => others_given (st_Q s0) (st_ell s0 / 2%:R) (fun=> mu0) u0 y b)
      (fun p xm b y => others_given (st_Q p.2) (st_ell p.2 / 2%:R) (fun i => mut (xm i) (st_q p.2)) p.1 y b)
      rs (@barker_move _)
      (path_target (fun x => gauss_kernel (st_Q s0) x mu0 + r0 x
          + gauss_kernel (st_ell s0 / 2%:R)%:M u0 (x + (st_delta s0 / 2%:R) *: g0 x))
        (fun xm x p => gauss_kernel (st_Q p.2) x (mut xm (st_q p.2)) + rt xm x (st_q p.2)
          + gauss_kernel (st_ell p.2 / 2%:R)%:M p.1 (x + (st_delta p.2 / 2%:R) *: gt xm x (st_q p.2))) [::])
      key [::] [::] y0 [::])
  <-> st_Q s0 = diag_mx (st_G s0).
Proof. exact: atp_density_iff. Qed.
Print Assumptions C57_atp_density_iff.

(** The full statement fails on [step_w], a correct SVD of a positive definite matrix in dimension
    2, whatever the rest of the model. *)
Theorem C57_atp_density_refuted (n' : nat) (Q : Type) (q : Q) (rs : resampler n'.+2)
    (mu0 : 'cV[R]_2) (mut : 'cV[R]_2 -> Q -> 'cV[R]_2)
    (r0 : 'cV[R]_2 -> R) (rt : 'cV[R]_2 -> 'cV[R]_2 -> Q -> R)
    (g0 : 'cV[R]_2 -> 'cV[R]_2) (gt : 'cV[R]_2 -> 'cV[R]_2 -> Q -> 'cV[R]_2) (key : key) rvs0 rvs :
  good_resampler rs ->
  let s0 := step_w q in
  step_ok s0 /\
  ~ (forall u0 y0, csmc_keeps (atp_vec mu0 mut r0 rt g0 gt s0 u0 rvs0 rvs)
      (fun b y => others_given (st_Q s0) (st_ell s0 / 2%:R) (fun=> mu0) u0 y b)
      (fun p xm b y => others_given (st_Q p.2) (st_ell p.2 / 2%:R) (fun i => mut (xm i) (st_q p.2)) p.1 y b)
      rs (@barker_move _)
      (path_target (fun x => gauss_kernel (st_Q s0) x mu0 + r0 x
          + gauss_kernel (st_ell s0 / 2%:R)%:M u0 (x + (st_delta s0 / 2%:R) *: g0 x))
        (fun xm x p => gauss_kernel (st_Q p.2) x (mut xm (st_q p.2)) + rt xm x (st_q p.2)
          + gauss_kernel (st_ell p.2 / 2%:R)%:M p.1 (x + (st_delta p.2 / 2%:R) *: gt xm x (st_q p.2))) [::])
      key [::] [::] y0 [::]).
Proof. by move=> gr; split; [exact: step_w_ok|move=> H; exact: (step_w_rot ((atp_density_iff _ _ _ _ _ _ _ _ _ (step_w_ok q) gr).1 H))]. Qed.
Print Assumptions C57_atp_density_refuted.

(** The hypotheses of the partial theorems are met. *)
Example ex_step_diag (Q : Type) (q : Q) : exists s : step 2 Q, step_ok s /\ st_Q s = diag_mx (st_G s).
Proof. exact: ex_diag. Qed.
