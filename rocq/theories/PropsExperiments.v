(** * Property theorems C40-C42 and C47-C51: the experiments (/repo/experiments).  Statements
    only; the proofs are in ExperimentProofs, ExperimentSv, ExperimentMore, ExperimentKeys and
    ExperimentGrid. *)
From Coq Require Import Reals.
From mathcomp Require Import all_ssreflect all_algebra.
From Verif Require Import RInst Prog ProgTheory Gauss GaussSpec Proposal Kalman KalmanSpec Twisted.
From Verif Require Import Experiments ExperimentSpec ExperimentProofs ExperimentSv ExperimentMore ExperimentKeys ExperimentGrid.

Set Implicit Arguments.
Unset Strict Implicit.
Unset Printing Implicit Defensive.
Import GRing.Theory Num.Theory Order.TTheory.
Local Open Scope ring_scope.

(** ** C40 *)
(** The linear Gaussian experiment: the density each kernel is given ([x]: trajectory of T + 1
    states, [y]: data) is the joint density of the model, up to a constant. *)
Theorem C40_lgssm (d T : nat) (sigma : R) (y : nat -> 'cV[R]_d) : 0 < sigma ->
  let joint := lgssm_joint T sigma y in
  let ys := mkseq y T.+1 in
  [/\ (* CSMC *) same_density (fun x => lg_csmc_Gamma_0 sigma (y 0%N) (x 0%N)
        + \sum_(t < T) lg_csmc_Gamma_t sigma (x t) (x t.+1) (y t.+1)) joint,
      (* MALA_CSMC and RW_CSMC *) same_density (fun x => lg_mala_Gamma_0 sigma (y 0%N) (x 0%N)
        + \sum_(t < T) lg_mala_Gamma_t sigma (x t) (x t.+1) (y t.+1)) joint
      /\ same_density (fun x => lg_rw_Gamma_0 sigma (y 0%N) (x 0%N)
        + \sum_(t < T) lg_rw_Gamma_t sigma (x t) (x t.+1) (y t.+1)) joint,
      (* TP_CSMC and ADAPTED_CSMC *) same_density (fun x => prior_Gamma_0 (lg_m0 d) (lg_P0 d sigma) (lg_r0 (y 0%N)) (x 0%N)
        + \sum_(t < T) prior_Gamma_t (@lg_mut d) (lg_Q d sigma) (@lg_rt d) (x t) (x t.+1) (y t.+1)) joint,
      (* MALA and RW *) forall x, lg_log_pdf sigma (mkseq x T.+1) ys = joint x
    & (* TP and IMH: prior and likelihood *) forall x,
        chain_logpdf T (lg_m0 d) (lg_P0 d sigma) (fun=> lg_F d) (fun=> lg_Q d sigma) (fun=> lg_b d) x + lg_log_pdf_ys ys (mkseq x T.+1) = joint x].
Proof.
move=> s0; split; [exact: lg_csmc_target|split; [exact: lg_mala_csmc_target|exact: lg_rw_csmc_target]|exact: lg_tp_csmc_target
  |exact: lg_log_pdfE|exact: lg_prior_target].
Qed.
Print Assumptions C40_lgssm.

(** Its twisted kernels ([gv x t]: gradients; the last term is the density of the auxiliary variables). *)
Theorem C40_lgssm_twisted (d T : nat) (sigma : R) (y u : nat -> 'cV[R]_d) (delta ell : nat -> R) gv : 0 < sigma -> (forall t, 0 < ell t) ->
  let: (final, revs) := get_reversed_dynamics (lg_m0 d, lg_P0 d sigma) [seq Dyn (lg_F d) (lg_Q d sigma) (lg_b d) | t <- iota 0 T] in
  let: (p0, ps) := twisted_params final revs (mkseq u T.+1) (mkseq ell T.+1) in
  same_density (fun x : nat -> 'cV[R]_d =>
      tGamma_0 p0 (u 0%N) (delta 0%N) (ell 0%N) (lg_r0 (y 0%N) (x 0%N)) (gv x 0%N) (x 0%N)
      + \sum_(t < T) tGamma_t (nth p0 ps t) (u t.+1) (delta t.+1) (ell t.+1) (lg_rt (x t.+1) (y t.+1)) (gv x t.+1) (x t) (x t.+1))
    (fun x => lgssm_joint T sigma y x + \sum_(t < T.+1) gauss_logpdf (ell t / 2%:R)%:M (u t) (x t + (delta t / 2%:R) *: gv x t)).
Proof. exact: lg_twisted_target. Qed.
Print Assumptions C40_lgssm_twisted.

(** The stochastic volatility experiment, for any dynamics. *)
Theorem C40_sv (d T : nat) (m0 : 'cV[R]_d) (P0 F Q : 'M[R]_d) (b : 'cV[R]_d) (y : nat -> 'cV[R]_d) : spd P0 -> spd Q ->
  let joint := vol_joint T m0 P0 F Q b y in
  let ys := mkseq y T.+1 in
  [/\ (* CSMC *) same_density (fun x => sv_csmc_Gamma_0 m0 P0 (y 0%N) (x 0%N)
        + \sum_(t < T) sv_csmc_Gamma_t F Q b (x t) (x t.+1) (y t.+1)) joint,
      (* MALA_CSMC and RW_CSMC *) same_density (fun x => sv_mala_Gamma_0 m0 P0 (y 0%N) (x 0%N)
        + \sum_(t < T) sv_mala_Gamma_t F Q b (x t) (x t.+1) (y t.+1)) joint
      /\ same_density (fun x => sv_rw_Gamma_0 m0 P0 (y 0%N) (x 0%N)
        + \sum_(t < T) sv_rw_Gamma_t F Q b (x t) (x t.+1) (y t.+1)) joint,
      (* TP_CSMC and ADAPTED_CSMC *) same_density (fun x => prior_Gamma_0 m0 P0 (sv_r0 (y 0%N)) (x 0%N)
        + \sum_(t < T) prior_Gamma_t (sv_mut F b) Q (@sv_rt d) (x t) (x t.+1) (y t.+1)) joint
    & (* TP: prior and likelihood *) forall x, chain_logpdf T m0 P0 (fun=> F) (fun=> Q) (fun=> b) x + sv_log_pdf_ys ys (mkseq x T.+1) = joint x].
Proof.
move=> hP hQ; split; [exact: sv_csmc_target|split; [exact: sv_mala_csmc_target|exact: sv_rw_csmc_target]|exact: sv_tp_csmc_target
  |exact: sv_prior_target].
Qed.
Print Assumptions C40_sv.

Theorem C40_sv_twisted (d T : nat) (phi tau rho : R) (y u : nat -> 'cV[R]_d) (delta ell : nat -> R) gv :
  0 < tau -> phi ^+ 2 < 1 -> rho < 1 -> 0 < 1 + (d%:R - 1) * rho -> (forall t, 0 < ell t) ->
  let: (m0, P0, F, Q, b) := get_dynamics d 0 phi tau rho in
  let: (final, revs) := get_reversed_dynamics (m0, P0) [seq Dyn F Q b | t <- iota 0 T] in
  let: (p0, ps) := twisted_params final revs (mkseq u T.+1) (mkseq ell T.+1) in
  same_density (fun x : nat -> 'cV[R]_d =>
      tGamma_0 p0 (u 0%N) (delta 0%N) (ell 0%N) (sv_r0 (y 0%N) (x 0%N)) (gv x 0%N) (x 0%N)
      + \sum_(t < T) tGamma_t (nth p0 ps t) (u t.+1) (delta t.+1) (ell t.+1) (sv_rt (x t.+1) (y t.+1)) (gv x t.+1) (x t) (x t.+1))
    (fun x => vol_joint T m0 P0 F Q b y x + \sum_(t < T.+1) gauss_logpdf (ell t / 2%:R)%:M (u t) (x t + (delta t / 2%:R) *: gv x t)).
Proof. exact: sv_twisted_target. Qed.
Print Assumptions C40_sv_twisted.

(** MALA.  The full statement is: the density it is given is that of the model.  With at least
    two time steps it is so exactly when the prediction it computes is F z + b. *)
Theorem C40_sv_mala_iff (d T : nat) (m0 : 'cV[R]_d) (P0 F Q : 'M[R]_d) (b : 'cV[R]_d) (y : nat -> 'cV[R]_d) : spd P0 -> spd Q -> (0 < T)%N ->
  same_density (fun x => sv_full_log_pdf m0 P0 F Q b (mkseq y T.+1) (mkseq x T.+1)) (vol_joint T m0 P0 F Q b y)
  <-> forall z, sv_pred F b z = F *m z + b.
Proof. by move=> hP hQ; exact: sv_mala_iff. Qed.
Print Assumptions C40_sv_mala_iff.

(** The experiment has nu = 0, hence b = 0, and the prediction is 0. *)
Theorem C40_sv_mala_refuted (d T : nat) (phi tau rho : R) (y : nat -> 'cV[R]_d) : (0 < d)%N -> (0 < T)%N ->
  0 < tau -> phi ^+ 2 < 1 -> phi != 0 -> rho < 1 -> 0 < 1 + (d%:R - 1) * rho ->
  let: (m0, P0, F, Q, b) := get_dynamics d 0 phi tau rho in
  ~ same_density (fun x => sv_full_log_pdf m0 P0 F Q b (mkseq y T.+1) (mkseq x T.+1)) (vol_joint T m0 P0 F Q b y).
Proof. exact: sv_mala_bad. Qed.
Print Assumptions C40_sv_mala_refuted.

(** What it targets there: states that are independent over time. *)
Theorem C40_sv_mala_actual (d T : nat) (phi tau rho : R) (y : nat -> 'cV[R]_d) :
  0 < tau -> phi ^+ 2 < 1 -> rho < 1 -> 0 < 1 + (d%:R - 1) * rho ->
  let: (m0, P0, F, Q, b) := get_dynamics d 0 phi tau rho in
  same_density (fun x => sv_full_log_pdf m0 P0 F Q b (mkseq y T.+1) (mkseq x T.+1))
    (fun x => gauss_logpdf P0 (x 0%N) 0 + \sum_(t < T) gauss_logpdf Q (x t.+1) 0 + \sum_(t < T.+1) vol_logpdf (x t) (y t)).
Proof. exact: sv_mala_iid. Qed.
Print Assumptions C40_sv_mala_actual.

(** Missing here: more than one time step. *)
Theorem C40_sv_mala_partial (d : nat) (m0 : 'cV[R]_d) (P0 F Q : 'M[R]_d) (b : 'cV[R]_d) (y : nat -> 'cV[R]_d) : spd P0 -> spd Q ->
  same_density (fun x => sv_full_log_pdf m0 P0 F Q b (mkseq y 1) (mkseq x 1)) (vol_joint 0 m0 P0 F Q b y).
Proof. by move=> hP hQ; exact: (@sv_mala_single d 0). Qed.
Print Assumptions C40_sv_mala_partial.

(** ** C41 *)
Theorem C41_covariances (d : nat) (nu phi tau rho : R) : 0 < tau -> phi ^+ 2 < 1 -> rho < 1 -> 0 < 1 + (d%:R - 1) * rho ->
  let: (_, P0, _, Q, _) := get_dynamics d nu phi tau rho in
  [/\ spd P0, spd Q & Q = equicorrelated d tau rho].
Proof. by move=> t0 p1 r1 rd; have := @dynamics_spd d nu phi tau rho t0 p1 r1 rd => -[]. Qed.
Print Assumptions C41_covariances.

Theorem C41_stationary_covariance (d : nat) (nu phi tau rho : R) (t : nat) : phi ^+ 2 != 1 ->
  let: (_, P0, F, Q, _) := get_dynamics d nu phi tau rho in
  F *m P0 *m F^T + Q = P0 /\ cov_at P0 (fun=> F) (fun=> Q) t = P0.
Proof. by move=> p1; split; [exact: (@cov_fixed d nu phi tau rho p1) | exact: (@cov_moments d nu phi tau rho t p1)]. Qed.
Print Assumptions C41_stationary_covariance.

(** The full statement is: the initial mean is stationary too.  The drift is (I + F) mu instead
    of (I - F) mu, so it is exactly when nu phi = 0, which holds in the experiment (nu = 0). *)
Theorem C41_stationary_mean_iff (d : nat) (nu phi tau rho : R) : (0 < d)%N ->
  (let: (m0, _, F, _, b) := get_dynamics d nu phi tau rho in F *m m0 + b = m0) <-> nu * phi = 0.
Proof. exact: mean_fixed_iff. Qed.
Print Assumptions C41_stationary_mean_iff.

Theorem C41_stationary_mean_refuted :
  let: (m0, _, F, _, b) := get_dynamics 1 1 (1 / 2%:R) 1 0 in F *m m0 + b <> m0.
Proof. exact: mean_moves. Qed.
Print Assumptions C41_stationary_mean_refuted.

Theorem C41_stationary_partial (d : nat) (nu phi tau rho : R) (t : nat) : phi ^+ 2 != 1 -> nu * phi = 0 ->
  let: (m0, P0, F, Q, b) := get_dynamics d nu phi tau rho in
  mean_at m0 (fun=> F) (fun=> b) t = m0 /\ cov_at P0 (fun=> F) (fun=> Q) t = P0.
Proof. exact: stationary_moments. Qed.
Print Assumptions C41_stationary_partial.

(** ** C42 *)
(** Every index of the LGSSM job array runs: its kernel and style exist, the library function accepts
    all keywords it is given and is given all it needs, and the step size has the shape it
    expects. *)
Theorem C42_lgssm_accepted (i : nat) : i \in lg_array ->
  exists c im, let: (_, _, _, (k, _, _, _)) := c in
  [/\ lg_config i = Some c, lg_launch i = Some im,
      {subset forwarded im <= accepted im} /\ uniq (forwarded im), {subset required im <= forwarded im}
    & forall b, wants_array im = Some b -> shape_delta k = b].
Proof. exact: lg_launches. Qed.
Print Assumptions C42_lgssm_accepted.

(** Each kernel and style named by an error message reaches a library function, different styles
    reach different ones, and the adapted and random walk variants are the gradient variants with
    the gradient stopped; the stochastic volatility experiment has the first seven kernels. *)
Theorem C42_dispatch (k : kernel_type) (s s' : style) :
  [/\ isSome (lg_kernel_maker k s) = (s \in offered k),
      reads_style k -> isSome (lg_kernel_maker k s) -> lg_kernel_maker k s = lg_kernel_maker k s' -> s = s',
      ~~ reads_style k -> lg_kernel_maker k s = lg_kernel_maker k s',
      lg_kernel_maker ADAPTED_CSMC s = obind stopped (lg_kernel_maker TP_CSMC s)
    & lg_kernel_maker RW s = obind stopped (lg_kernel_maker MALA s)].
Proof. exact: lg_dispatch. Qed.
Print Assumptions C42_dispatch.
Theorem C42_dispatch_sv (k : kernel_type) (s : style) :
  sv_kernel_maker k s = if (value k < 7)%N then lg_kernel_maker k s else None.
Proof. exact: sv_dispatch. Qed.
Print Assumptions C42_dispatch_sv.

(** Each log-variance in -6.0, -5.9, ..., 3.0 (in tenths) and each row of the table is run by exactly one index ... *)
Theorem C42_lgssm_once (lv : int) r : - 60%:Z <= lv -> lv <= 30%:Z -> r \in lg_rows ->
  exists! i, i \in lg_array /\ lg_config i = Some (lv, 10%N, 10%N, r).
Proof. exact: lg_once. Qed.
Print Assumptions C42_lgssm_once.

(** ... and no two indices write the same file. *)
Theorem C42_lgssm_files (i j : nat) c c' : lg_config i = Some c -> lg_config j = Some c' -> lg_file c = lg_file c' -> i = j.
Proof. exact: lg_files. Qed.
Print Assumptions C42_lgssm_files.

(** The stochastic volatility grid pairs 18 kernels with 14 styles.  Its job array (8 of the 56
    configurations) only runs pairs that exist ... *)
Theorem C42_sv_accepted_partial (i : nat) : i \in sv_array -> exists im, sv_launch i = Some im.
Proof. exact: sv_launches. Qed.
Print Assumptions C42_sv_accepted_partial.

(** ... but three out of 14 rows do not, *)
Theorem C42_sv_accepted_refuted (i : nat) : (i < size sv_combination)%N -> (sv_launch i = None <-> (i %% 14)%N \in [:: 10; 11; 12]%N).
Proof. exact: sv_fails. Qed.
Print Assumptions C42_sv_accepted_refuted.

(** indices 2 and 5 of the array are the same configuration, *)
Theorem C42_sv_once_refuted : sv_config 2 = sv_config 5 /\ sv_config 2 <> None.
Proof. exact: sv_twice. Qed.
Print Assumptions C42_sv_once_refuted.

(** no index runs TP or MALA, and a file read by the analysis is written by none. *)
Theorem C42_sv_kernels_refuted (i : nat) c : sv_config i = Some c -> let: (_, _, _, (k, _)) := c in k \notin [:: TP; MALA].
Proof. exact: sv_never. Qed.
Print Assumptions C42_sv_kernels_refuted.
Theorem C42_sv_files_refuted : exists f, f \in sv_files_read /\ forall i c, sv_config i = Some c -> sv_file c <> f.
Proof. exact: sv_unread. Qed.
Print Assumptions C42_sv_files_refuted.

(** ** C47 *)
(** The simulated data, as functions of independent standard normal noises: the density of the
    model is that of the noises divided by the Jacobian. *)
Theorem C47_lgssm_data (d T : nat) (sigma : R) (eps_0 : 'cV[R]_d) (eps_x eps_y : nat -> 'cV[R]_d) : 0 < sigma ->
  let data := lg_get_data sigma eps_0 (mkseq eps_x T.+1) (mkseq eps_y T.+1) in
  let x t := (nth (0, 0) data t).1 in
  let y t := (nth (0, 0) data t).2 in
  size data = T.+1 /\ lgssm_joint T sigma y x
    = std_logpdf eps_0 + \sum_(t < T) std_logpdf (eps_x t) + \sum_(t < T.+1) std_logpdf (eps_y t) - T.+1%:R * (d%:R * ln sigma).
Proof. exact: lg_data_law. Qed.
Print Assumptions C47_lgssm_data.

Theorem C47_sv_data (d T : nat) (m0 : 'cV[R]_d) (P0 F Q : 'M[R]_d) (b eps_0 : 'cV[R]_d) (eps_x eps_y : nat -> 'cV[R]_d) : spd P0 -> spd Q ->
  let data := sv_get_data m0 P0 F Q b eps_0 (mkseq (fun t => (eps_x t, eps_y t)) T.+1) in
  let x t := (nth (0, 0) data t).1 in
  let y t := (nth (0, 0) data t).2 in
  size data = T.+1 /\ vol_joint T m0 P0 F Q b y x
    = std_logpdf eps_0 + \sum_(t < T) std_logpdf (eps_x t) + \sum_(t < T.+1) std_logpdf (eps_y t)
      - (ln (\det P0) / 2%:R + T%:R * (ln (\det Q) / 2%:R) + \sum_(t < T.+1) (\sum_i x t i 0) / 2%:R).
Proof. exact: sv_data_law. Qed.
Print Assumptions C47_sv_data.

(** ** C48 *)
(** The full statement is: every program uses its random keys at most once.  The LGSSM data
    generator draws both its noises with the same key. *)
Theorem C48_lgssm_data_refuted (N0 N1 : finType) (A : Type) (noise0 : N0 -> R) (noises : N1 -> R) (build : N0 -> N1 -> A) (key : key) :
  (forall ks a, runs (lg_get_data_prog noise0 noises build key) ks a -> ks = [:: split key 0; split key 0])
  /\ forall rs (n0 : N0) (n1 : N1), ~ uses rs (lg_get_data_prog noise0 noises build key).
Proof. by split=> [ks a|rs n0 n1]; [exact: lg_data_keys | exact: lg_data_reuse]. Qed.
Print Assumptions C48_lgssm_data_refuted.

Theorem C48_sv_data (N : finType) (S O : Type) (noise : N -> R) (fst : N -> S) (obs : S -> N -> O) (next : S -> N -> S) (key : key) T :
  uses [:: key] (sv_get_data_prog noise fst obs next key T).
Proof. exact: sv_data_uses. Qed.
Print Assumptions C48_sv_data.

(** The drivers, around parts that use only their key. *)
Theorem C48_lgssm_experiment (D S A : Type) (get_data : key -> prog D) (init : key -> D -> prog (nat -> S)) (kern : D -> key -> S -> prog A) key K M :
  (forall key, uses [:: key] (get_data key)) -> (forall key data, uses [:: key] (init key data)) ->
  (forall data key s, uses [:: key] (kern data key s)) -> uses [:: key] (lg_experiment get_data init kern key K M).
Proof. exact: lg_experiment_uses. Qed.
Print Assumptions C48_lgssm_experiment.

Theorem C48_sv_experiment (D S P A : Type) (get_data : key -> prog D) (init : key -> D -> prog S) (adapt : D -> key -> S -> prog (S * P))
    (burnin : D -> P -> key -> S -> prog S) (sample : D -> P -> key -> S -> prog A) key K M :
  (forall key, uses [:: key] (get_data key)) -> (forall key data, uses [:: key] (init key data)) ->
  (forall data key s, uses [:: key] (adapt data key s)) -> (forall data p key s, uses [:: key] (burnin data p key s)) ->
  (forall data p key s, uses [:: key] (sample data p key s)) ->
  uses [:: key] (sv_experiment get_data init adapt burnin sample key K M).
Proof. exact: sv_experiment_uses. Qed.
Print Assumptions C48_sv_experiment.

(** ** C49 *)
(** The full statement is: the matrices returned by get_data are the inverse factors, and the
    recorded energy is the log-density.  Both hold exactly for diagonal covariances. *)
Theorem C49_inverse_factor_iff (d : nat) (P : 'M[R]_d) : spd P -> sv_data_inv_chol P *m cholesky P = 1%:M <-> diagonal P.
Proof. exact: sv_inv_chol_iff. Qed.
Print Assumptions C49_inverse_factor_iff.

Theorem C49_energy_partial (d T : nat) (m0 : 'cV[R]_d) (P0 F Q : 'M[R]_d) (b : 'cV[R]_d) (y : nat -> 'cV[R]_d) : spd P0 -> spd Q -> (0 < T)%N ->
  same_density (fun x => sv_energy m0 P0 F Q b (mkseq x T.+1) (mkseq y T.+1))
    (fun x => sv_full_log_pdf m0 P0 F Q b (mkseq y T.+1) (mkseq x T.+1))
  <-> diagonal P0 /\ diagonal Q.
Proof. by move=> hP hQ; exact: sv_energy_iff. Qed.
Print Assumptions C49_energy_partial.

(** In the experiment (rho = 1/4) the energy is neither the density given to MALA nor that of the model. *)
Theorem C49_energy_refuted (d T : nat) (phi tau rho : R) (y : nat -> 'cV[R]_d) : (1 < d)%N -> (0 < T)%N ->
  0 < tau -> phi ^+ 2 < 1 -> rho != 0 -> rho < 1 -> 0 < 1 + (d%:R - 1) * rho ->
  let: (m0, P0, F, Q, b) := get_dynamics d 0 phi tau rho in
  let energy := fun x => sv_energy m0 P0 F Q b (mkseq x T.+1) (mkseq y T.+1) in
  ~ same_density energy (fun x => sv_full_log_pdf m0 P0 F Q b (mkseq y T.+1) (mkseq x T.+1))
  /\ ~ same_density energy (vol_joint T m0 P0 F Q b y).
Proof. exact: sv_energy_bad. Qed.
Print Assumptions C49_energy_refuted.

(** ** C50 *)
(** The initial trajectory of an LGSSM chain is an affine bijection of standard normal noises
    under which the posterior density becomes theirs: it is an exact posterior draw. *)
Theorem C50_lgssm_init (d T : nat) (sigma : R) (y : nat -> 'cV[R]_d) : 0 < sigma ->
  let draw eps t := nth 0 (lg_init_xs sigma T.+1 (mkseq y T.+1) (mkseq eps T.+1)) t in
  (exists c, forall eps, lgssm_joint T sigma y (draw eps) = c + \sum_(t < T.+1) std_logpdf (eps t))
  /\ forall x : nat -> 'cV[R]_d, exists eps, forall t, (t <= T)%N -> draw eps t = x t.
Proof. exact: lg_init_law. Qed.
Print Assumptions C50_lgssm_init.

(** ** C51 *)
(** The bootstrap proposals are weighted with the density they are drawn from. *)
Theorem C51_lgssm_bootstrap (d : nat) (sigma : R) (x e : 'cV[R]_d) : 0 < sigma ->
  lg_M0_logpdf sigma (lg_M0_rvs sigma e) = std_logpdf e - d%:R * ln sigma
  /\ lg_Mt_logpdf sigma x (lg_Mt_rvs sigma x e) = std_logpdf e - d%:R * ln sigma.
Proof. exact: lg_bootstrap. Qed.
Print Assumptions C51_lgssm_bootstrap.

Theorem C51_sv_bootstrap (d : nat) (m0 : 'cV[R]_d) (P0 F Q : 'M[R]_d) (b x e : 'cV[R]_d) : spd P0 -> spd Q ->
  sv_M0_logpdf m0 P0 (sv_M0_rvs m0 P0 e) = gauss_kernel 1%:M e 0
  /\ sv_Mt_logpdf F Q b x (sv_Mt_rvs F Q b x e) = gauss_kernel 1%:M e 0.
Proof. exact: sv_bootstrap. Qed.
Print Assumptions C51_sv_bootstrap.

(** The preconditioned ones are in the LGSSM experiment, for every factorisation the SVD may return, *)
Theorem C51_lgssm_preconditioned (d : nat) (sigma ell : R) (U : 'M[R]_d) (G : 'rV[R]_d) :
  U *m U^T = 1%:M -> (forall i, 0 < G 0 i) -> 0 < ell -> lg_Q d sigma = U *m diag_mx G *m U^T ->
  (forall i, stable_zero <= G 0 i * (ell / 2%:R) / (G 0 i + ell / 2%:R)) ->
  let p := get_proposal_params ell U G U^T in
  exists c, forall u m x, prop_logpdf p u m x = gauss_kernel (p_chol p *m (p_chol p)^T) x (prop_mean p u m) + c.
Proof. exact: lg_proposal_density. Qed.
Print Assumptions C51_lgssm_preconditioned.

(** and are not in the stochastic volatility experiment, for any. *)
Theorem C51_sv_preconditioned_refuted (d : nat) (nu phi tau rho ell : R) (U : 'M[R]_d) (G : 'rV[R]_d) :
  (1 < d)%N -> 0 < tau -> rho != 0 ->
  U *m U^T = 1%:M -> (forall i, 0 < G 0 i) -> 0 < ell ->
  (let: (_, _, _, Q, _) := get_dynamics d nu phi tau rho in Q = U *m diag_mx G *m U^T) ->
  (forall i, stable_zero <= G 0 i * (ell / 2%:R) / (G 0 i + ell / 2%:R)) ->
  let p := get_proposal_params ell U G U^T in
  ~ exists c, forall u m x, prop_logpdf p u m x = gauss_kernel (p_chol p *m (p_chol p)^T) x (prop_mean p u m) + c.
Proof. by move=> d1 t0 r0 UU G0 l0 e cl; apply: (sv_proposal_density d1 t0 r0 UU G0 l0 e cl). Qed.
Print Assumptions C51_sv_preconditioned_refuted.

(** ** The hypotheses are met *)
(** The parameters of experiment.py: phi = 9/10, rho = 1/4, D = 30, tau one of 0.1, 0.5, 1, 2. *)
Example ex_sv_parameters : [/\ 0 < 1 / 10%:R :> R, (9%:R / 10%:R) ^+ 2 < 1 :> R, 9%:R / 10%:R != 0 :> R, 1 / 4%:R < 1 :> R
  & 0 < 1 + (30%:R - 1) * (1 / 4%:R) :> R].
Proof. exact: sv_parameters. Qed.
Example ex_spd (d : nat) : spd (1%:M : 'M[R]_d).
Proof. exact: (@spd_scalar d 1 ltr01). Qed.
(** A factorisation in two dimensions with correlation: U = (1, 1; 1, -1) / sqrt 2, G = (3/2, 1/2). *)
Example ex_factorisation : exists (U : 'M[R]_2) (G : 'rV[R]_2), [/\ U *m U^T = 1%:M, forall i, 0 < G 0 i,
  equicorrelated 2 1 (1 / 2%:R) = U *m diag_mx G *m U^T & forall i, stable_zero <= G 0 i * (2%:R / 2%:R) / (G 0 i + 2%:R / 2%:R)].
Proof. exact: equi_factor. Qed.
