(** * Experiments: model of /repo/experiments: lgssm_scaling and stochastic_volatility (model.py,
    kernels.py, distribute.py, the parts of experiment.py named below).

    Not modelled: argument parsing, plots, timing.  The grids [combination_1] and
    [combination_2] of lgssm_scaling/distribute.py and the step sizes are in StepSizes.v.  Of results_analysis.py,
    here: the table of files it reads; the rest is in Diagnostics.v and Tables.v.  Real arithmetic: [jnp.nansum] is a sum. *)
From Coq Require Import Reals.
From mathcomp Require Import all_ssreflect all_algebra.
From Verif Require Import RInst Prog Gauss Kalman.

Set Implicit Arguments.
Unset Strict Implicit.
Unset Printing Implicit Defensive.
Import GRing.Theory Num.Theory Order.TTheory.
Local Open Scope ring_scope.

(** ** Configurations *)

(** lgssm_scaling/kernels.py:25-34; stochastic_volatility/kernels.py:24-31 has the first seven. *)
Inductive kernel_type := CSMC | TP | TP_CSMC | MALA_CSMC | ADAPTED_CSMC | RW_CSMC | MALA | RW | IMH.

(** The strings that occur as styles and as [--delta-arg]. *)
Inductive style := s_bootstrap | s_na | s_filtering | s_marginal | s_twisted | s_smoothing | s_auxiliary.
Inductive delta_arg := a_D | a_TD.

Definition kernel_type_dec (a b : kernel_type) : {a = b} + {a <> b}. Proof. by decide equality. Defined.
Definition style_dec (a b : style) : {a = b} + {a <> b}. Proof. by decide equality. Defined.
Definition delta_arg_dec (a b : delta_arg) : {a = b} + {a <> b}. Proof. by decide equality. Defined.
Canonical kernel_type_eqType := EqType kernel_type (comparableMixin kernel_type_dec).
Canonical style_eqType := EqType style (comparableMixin style_dec).
Canonical delta_arg_eqType := EqType delta_arg (comparableMixin delta_arg_dec).

(** [KernelType.X.value], written on the command line, and [KernelType(value)], which raises an
    error ([None]) for other numbers; [n] members. *)
Definition value (k : kernel_type) : nat :=
  match k with CSMC => 0 | TP => 1 | TP_CSMC => 2 | MALA_CSMC => 3 | ADAPTED_CSMC => 4 | RW_CSMC => 5 | MALA => 6 | RW => 7 | IMH => 8 end.
Definition of_value (n v : nat) : option kernel_type :=
  nth None [seq Some k | k <- take n [:: CSMC; TP; TP_CSMC; MALA_CSMC; ADAPTED_CSMC; RW_CSMC; MALA; RW; IMH]] v.

(** The library function a factory ends up with; [sg]: [stop_gradient]. *)
Inductive impl :=
| Kcsmc | Ktp | Kimh | Krw | Kal_f | Kal_s | Kl_f
| Ktp_csmc (sg : bool) | Katp_f (sg : bool) | Katp_s (sg : bool) | Kt_atp (sg : bool)
| Kmala (auxiliary sg : bool).

(** kernels.py:181-193 (lgssm_scaling), 160-172 (stochastic_volatility). *)
Definition make_tp_csmc (sg : bool) (s : style) : option impl :=
  match s with
  | s_marginal => Some (Ktp_csmc sg)
  | s_filtering => Some (Katp_f sg)
  | s_smoothing => Some (Katp_s sg)
  | s_twisted => Some (Kt_atp sg)
  | _ => None (* NotImplementedError *)
  end.
(** kernels.py:213-223 (both). *)
Definition make_mala_csmc (s : style) : option impl :=
  match s with s_filtering => Some Kal_f | s_smoothing => Some Kal_s | s_marginal => Some Kl_f | _ => None end.
(** kernels.py:111-116 (lgssm_scaling), 83-88 (stochastic_volatility). *)
Definition make_mala (sg : bool) (s : style) : option impl :=
  match s with s_marginal => Some (Kmala false sg) | s_auxiliary => Some (Kmala true sg) | _ => None end.
(** kernels.py:128-145 (lgssm_scaling), 106-122 (stochastic_volatility). *)
Definition make_csmc (s : style) : option impl := match s with s_bootstrap => Some Kcsmc | _ => None end.

(** lgssm_scaling/kernels.py:35-56. *)
Definition lg_kernel_maker (k : kernel_type) (s : style) : option impl :=
  match k with
  | TP => Some Ktp
  | CSMC => make_csmc s
  | TP_CSMC => make_tp_csmc false s
  | MALA_CSMC => make_mala_csmc s
  | ADAPTED_CSMC => make_tp_csmc true s
  | RW_CSMC => Some Krw
  | MALA => make_mala false s
  | RW => make_mala true s
  | IMH => Some Kimh
  end.

(** stochastic_volatility/kernels.py:33-50. *)
Definition sv_kernel_maker (k : kernel_type) (s : style) : option impl :=
  match k with
  | TP => Some Ktp
  | CSMC => make_csmc s
  | TP_CSMC => make_tp_csmc false s
  | MALA_CSMC => make_mala_csmc s
  | ADAPTED_CSMC => make_tp_csmc true s
  | RW_CSMC => Some Krw
  | MALA => make_mala false s
  | RW | IMH => None (* not members *)
  end.

(** Keyword arguments.  experiment.py:116-120 (lgssm_scaling), 130-134 (stochastic_volatility) pass these to the factory; *)
Inductive kw := kw_N | kw_resampling_func | kw_backward | kw_ancestor_move_func | kw_style.
Definition kw_dec (a b : kw) : {a = b} + {a <> b}. Proof. by decide equality. Defined.
Canonical kw_eqType := EqType kw (comparableMixin kw_dec).
Definition passed : seq kw := [:: kw_N; kw_resampling_func; kw_backward; kw_ancestor_move_func; kw_style].
(** the factory keeps or drops some ([style] is a named parameter or popped, [**_kwargs] of the
    others are not forwarded) and forwards the rest to the library function; *)
Definition forwarded (i : impl) : seq kw :=
  match i with
  | Kmala _ _ | Ktp | Kimh => [:: kw_N]
  | _ => [seq k <- passed | k != kw_style]
  end.
(** the signatures of the library functions ([kernel] or [get_kernel] of each module):
    parameters accepted by keyword, and those among them without a default. *)
Definition accepted (i : impl) : seq kw :=
  match i with
  | Kmala _ _ | Ktp | Kimh => [:: kw_N]
  | _ => [:: kw_resampling_func; kw_ancestor_move_func; kw_N; kw_backward]
  end.
Definition required (i : impl) : seq kw :=
  match i with
  | Kmala _ _ | Ktp | Kimh => [::]
  | _ => [:: kw_resampling_func; kw_ancestor_move_func; kw_N]
  end.

(** lgssm_scaling/kernels.py:58-76: whether [shape_delta] returns an array of length T (else the
    number itself).  Whether the library function indexes its step sizes by time ([deltas[:, None]])
    or takes a number ([0.5 * delta * grad_x_star]); [None]: it is not given any. *)
Definition shape_delta (k : kernel_type) : bool :=
  match k with TP => false | CSMC => false | TP_CSMC => true | MALA_CSMC => true | ADAPTED_CSMC => true
  | RW_CSMC => true | RW => false | IMH => false | MALA => false end.
Definition wants_array (i : impl) : option bool :=
  match i with
  | Kcsmc | Kimh => None
  | Ktp | Kmala _ _ => Some false
  | _ => Some true
  end.

(** *** Grids *)
(** lgssm_scaling/distribute.py:26-72. *)
Definition lg_KERNELS : seq kernel_type :=
  [:: CSMC; RW_CSMC; TP_CSMC; TP_CSMC; TP_CSMC; TP_CSMC; TP_CSMC; MALA_CSMC; MALA_CSMC; MALA_CSMC; MALA_CSMC; MALA_CSMC;
      ADAPTED_CSMC; ADAPTED_CSMC; ADAPTED_CSMC; TP; MALA; MALA; RW; IMH].
Definition lg_STYLES : seq style :=
  [:: s_bootstrap; s_na; s_filtering; s_marginal; s_filtering; s_marginal; s_twisted;
      s_filtering; s_marginal; s_filtering; s_marginal; s_smoothing;
      s_filtering; s_marginal; s_twisted; s_na; s_auxiliary; s_marginal; s_auxiliary; s_na].
(** A scale 1 / k is represented by k. *)
Definition lg_SCALES : seq nat := [:: 1; 1; 1; 1; 3; 3; 3; 1; 1; 3; 3; 3; 1; 1; 1; 3; 3; 3; 1; 1]%N.
Definition lg_DELTA_ARGS : seq delta_arg :=
  [:: a_D; a_D; a_D; a_D; a_D; a_D; a_D; a_D; a_D; a_D; a_D; a_D; a_D; a_D; a_D; a_TD; a_TD; a_TD; a_TD; a_TD].

(** distribute.py:24: [round(x, 2) for x in np.arange(-6, 3.1, 0.1)], in tenths. *)
Definition lg_LOG_SIGMAS : seq int := [seq (i%:Z - 60%:Z) | i <- iota 0 91].

(** [itertools.product]: the last factor varies fastest. *)
Definition product (A B : Type) (s : seq A) (t : seq B) : seq (A * B) := [seq (a, b) | a <- s, b <- t].

Definition lg_rows : seq (kernel_type * style * nat * delta_arg) := zip (zip (zip lg_KERNELS lg_STYLES) lg_SCALES) lg_DELTA_ARGS.
(** distribute.py:13-16, 77-79: log-variance, T, D, row. *)
Definition lg_combination : seq (int * nat * nat * (kernel_type * style * nat * delta_arg)) :=
  product (product (product lg_LOG_SIGMAS [:: 10%N]) [:: 10%N]) lg_rows.
(** distributed_experiment.sh:2: [#SBATCH -a 0-1819]. *)
Definition lg_array : seq nat := iota 0 1820.

(** stochastic_volatility/distribute.py:11-46.  Python's [zip] stops at the shorter list. *)
Definition sv_KERNELS : seq kernel_type :=
  [:: CSMC; RW_CSMC; TP_CSMC; TP_CSMC; TP_CSMC; TP_CSMC; TP_CSMC; MALA_CSMC; MALA_CSMC; MALA_CSMC; MALA_CSMC; MALA_CSMC;
      ADAPTED_CSMC; ADAPTED_CSMC; ADAPTED_CSMC; TP; MALA; MALA].
Definition sv_STYLES : seq style :=
  [:: s_bootstrap; s_na; s_filtering; s_marginal; s_twisted; s_filtering; s_marginal; s_smoothing;
      s_filtering; s_marginal; s_twisted; s_na; s_auxiliary; s_marginal].
(** T, tau (in hundredths), target (in hundredths), row. *)
Definition sv_combination : seq (nat * nat * nat * (kernel_type * style)) :=
  product (product (product [:: 128%N] [:: 10; 50; 100; 200]%N) [:: 75%N]) (zip sv_KERNELS sv_STYLES).
(** distributed_experiment.sh:2: [#SBATCH -a 0-7]. *)
Definition sv_array : seq nat := iota 0 8.

(** What index [i] runs: [combination[i]] ([None]: IndexError), then experiment.py finds the
    kernel type from its number and calls the factory. *)
Definition lg_config (i : nat) := nth None [seq Some c | c <- lg_combination] i.
Definition lg_launch (i : nat) : option impl :=
  obind (fun c : int * nat * nat * (kernel_type * style * nat * delta_arg) =>
    let: (_, _, _, (k, s, _, _)) := c in obind (fun k => lg_kernel_maker k s) (of_value 9 (value k))) (lg_config i).
Definition sv_config (i : nat) := nth None [seq Some c | c <- sv_combination] i.
Definition sv_launch (i : nat) : option impl :=
  obind (fun c : nat * nat * nat * (kernel_type * style) =>
    let: (_, _, _, (k, s)) := c in obind (fun k => sv_kernel_maker k s) (of_value 7 (value k))) (sv_config i).

(** The fields that vary in the name of the file a run writes: lgssm_scaling/experiment.py:169-171
    (kernel, T, D, style, scale, delta argument, log-variance), stochastic_volatility/experiment.py:274-275
    (kernel, T, tau, style, target). *)
Definition lg_file (c : int * nat * nat * (kernel_type * style * nat * delta_arg)) :=
  let: (lv, T, D, (k, s, sc, a)) := c in (k, T, D, s, sc, a, lv).
Definition sv_file (c : nat * nat * nat * (kernel_type * style)) :=
  let: (T, tau, tg, (k, s)) := c in (k, T, tau, s, tg).

(** results_analysis.py:79-94 and 17-18, 29, 206: the files read. *)
Definition kernel_style_lst : seq (kernel_type * style) :=
  [:: (CSMC, s_bootstrap); (RW_CSMC, s_na); (ADAPTED_CSMC, s_filtering); (ADAPTED_CSMC, s_marginal); (ADAPTED_CSMC, s_twisted);
      (MALA_CSMC, s_filtering); (MALA_CSMC, s_marginal); (MALA_CSMC, s_smoothing); (TP, s_na);
      (TP_CSMC, s_filtering); (TP_CSMC, s_marginal); (TP_CSMC, s_twisted); (MALA, s_auxiliary); (MALA, s_marginal)].
Definition sv_files_read := [seq (ks.1, 128%N, tau, ks.2, 75%N) | tau <- [:: 10; 50; 100; 200]%N, ks <- kernel_style_lst].

(** ** The linear Gaussian experiment *)
Section Lgssm.
Variable d : nat.
Local Notation vec := 'cV[R]_d.
Local Notation mat := 'M[R]_d.
Variable sigma : R.

(** model.py:25-28; [norm.logpdf(y, x)] has scale 1. *)
Definition lg_log_potential (x y : vec) : R := \sum_i norm_logpdf (y i 0) (x i 0) 1 true.
(** model.py:31-32. *)
Definition lg_log_likelihood (xs ys : seq vec) : R := \sum_(p <- zip xs ys) lg_log_potential p.1 p.2.
(** model.py:35-42. *)
Definition lg_log_pdf (zs ys : seq vec) : R :=
  \sum_i norm_logpdf (head 0 zs i 0) 0 sigma true
  + \sum_(p <- zip (behead zs) (take (size zs).-1 zs)) \sum_i norm_logpdf (p.1 i 0) (p.2 i 0) sigma true
  + \sum_(p <- zip zs ys) \sum_i norm_logpdf (p.1 i 0) (p.2 i 0) 1 true.

(** kernels.py:137-142 (bootstrap). *)
Definition lg_M0_logpdf (x : vec) : R := \sum_i norm_logpdf (x i 0) 0 sigma true.
Definition lg_Mt_logpdf (x_t_m_1 x_t : vec) : R := \sum_i norm_logpdf (x_t i 0) (x_t_m_1 i 0) sigma true.
Definition lg_csmc_Gamma_0 (y0 x : vec) : R := lg_log_potential x y0 + lg_M0_logpdf x.
Definition lg_csmc_Gamma_t (x_t_m_1 x_t y : vec) : R := lg_log_potential x_t y + lg_Mt_logpdf x_t_m_1 x_t.
(** kernels.py:129-135: one row, given its noise. *)
Definition lg_M0_rvs (eps : vec) : vec := sigma *: eps.
Definition lg_Mt_rvs (x_t_m_1 eps : vec) : vec := x_t_m_1 + sigma *: eps.

(** kernels.py:203-209 (MALA_CSMC) and 232-238 (RW_CSMC). *)
Definition lg_mala_Gamma_0 (y0 x : vec) : R := lg_log_potential x y0 + \sum_i norm_logpdf (x i 0) 0 sigma true.
Definition lg_mala_Gamma_t (x_t_m_1 x_t y : vec) : R := lg_log_potential x_t y + \sum_i norm_logpdf (x_t i 0) (x_t_m_1 i 0) sigma true.
Definition lg_rw_Gamma_0 (y0 x : vec) : R := lg_log_potential x y0 + \sum_i norm_logpdf (x i 0) 0 sigma true.
Definition lg_rw_Gamma_t (x_t_m_1 x_t y : vec) : R := lg_log_potential x_t y + \sum_i norm_logpdf (x_t i 0) (x_t_m_1 i 0) sigma true.

(** kernels.py:87-94, 174-179, 257-264: parameters of the prior in the other kernels. *)
Definition lg_m0 : vec := 0.
Definition lg_P0 : mat := sigma ^+ 2 *: 1%:M.
Definition lg_F : mat := 1%:M.
Definition lg_Q : mat := sigma ^+ 2 *: 1%:M.
Definition lg_b : vec := 0.
(** kernels.py:161-173 (TP_CSMC, ADAPTED_CSMC; [stop_gradient] does not change the values). *)
Definition lg_r0 (y0 x : vec) : R := lg_log_potential x y0.
Definition lg_rt (x y : vec) : R := lg_log_potential x y.
Definition lg_mut (x : vec) : vec := x.
(** kernels.py:86, 253-255: the last argument of [tp.get_kernel] and [imh.get_kernel]. *)
Definition lg_log_pdf_ys (ys xs : seq vec) : R := lg_log_likelihood xs ys.

(** model.py:8-22, given the noises of one call: [eps_x], [eps_y] have length T.  The two draws
    share their key (lines 12 and 13): see [lg_get_data_prog] below. *)
Fixpoint lg_data_scan (x_k : vec) (inps : seq (vec * vec)) : seq (vec * vec) :=
  match inps with
  | [::] => [::]
  | (eps_x, eps_y) :: inps' =>
      let y_k := x_k + eps_y in
      let x_kp1 := x_k + sigma *: eps_x in
      (x_k, y_k) :: lg_data_scan x_kp1 inps'
  end.
Definition lg_get_data (eps_0 : vec) (eps_xs eps_ys : seq vec) : seq (vec * vec) :=
  lg_data_scan (sigma *: eps_0) (zip eps_xs eps_ys).

(** experiment.py:125-135: the initial trajectory of a chain, given its standard normal draws. *)
Definition lg_init_xs (T : nat) (ys epsilons : seq vec) : seq vec :=
  let m0 := 0 in
  let P0 := sigma ^+ 2 *: 1%:M in
  let fs := nseq T.-1 (Dyn 1%:M (sigma ^+ 2 *: 1%:M) 0) in
  let os := [seq Obs 1%:M 1%:M 0 y | y <- ys] in
  let: (filt, _) := filtering os m0 P0 fs in
  sampling epsilons filt fs.
End Lgssm.

(** ** The potentials built by tp_csmc.py:161-175, atp_csmc_f.py:199-214 and atp_csmc_s.py from a Gaussian prior *)
Section Potentials.
Variable d : nat.
Local Notation vec := 'cV[R]_d.
Local Notation mat := 'M[R]_d.
(** tp_csmc.py:58-62. *)
Definition inv_chol (P : mat) : mat := solve_triangular (cholesky P) 1%:M.
(** tp_csmc.py:161-165; 167-174. *)
Definition prior_Gamma_0 (mu0 : vec) (P0 : mat) (r0 : vec -> R) (x : vec) : R :=
  mvn_logpdf x mu0 0 (Some (inv_chol P0)) false + r0 x.
Definition prior_Gamma_t (mut : vec -> vec) (Q : mat) (rt : vec -> vec -> R) (x_prev x y : vec) : R :=
  mvn_logpdf x (mut x_prev) 0 (Some (inv_chol Q)) false + rt x y.
End Potentials.

(** ** The stochastic volatility experiment *)
Section Sv.
Variable d : nat.
Local Notation vec := 'cV[R]_d.
Local Notation mat := 'M[R]_d.

(** model.py:48-55: returns (U, U_star); the reshapes to a vector and back are [mxvec], [vec_mx]. *)
Definition stationary_covariance (phi tau rho : R) : mat * mat :=
  let U : mat := \matrix_(i, j) (if i == j then tau else tau * rho) in
  let vec_U := mxvec U in
  let vec_U_star := (1 - phi ^+ 2)^-1 *: vec_U in
  let U_star := vec_mx vec_U_star in
  (U, U_star).

(** model.py:39-45: (mu, P0, F, Q, b). *)
Definition get_dynamics (nu phi tau rho : R) : vec * mat * mat * mat * vec :=
  let F : mat := phi *: 1%:M in
  let: (Q, P0) := stationary_covariance phi tau rho in
  let mu : vec := nu *: const_mx 1 in
  let b := mu + F *m mu in
  (mu, P0, F, Q, b).

(** model.py:58-62. *)
Definition sv_log_potential (x y : vec) : R := \sum_i norm_logpdf (y i 0) 0 (exp (1 / 2%:R * x i 0)) true.
(** model.py:65-66. *)
Definition sv_log_likelihood (xs ys : seq vec) : R := \sum_(p <- zip xs ys) sv_log_potential p.1 p.2.

(** model.py:72: [jnp.einsum('...j,ij,i->...i', z, F, b)]. *)
Definition sv_pred (F : mat) (b z : vec) : vec := \col_i \sum_j z j 0 * F i j * b i 0.
(** model.py:69-77. *)
Definition sv_log_pdf (zs ys : seq vec) (m0 : vec) (inv_chol_P0 F inv_chol_Q : mat) (b : vec) : R :=
  mvn_logpdf (head 0 zs) m0 0 (Some inv_chol_P0) false
  + \sum_(p <- zip (behead zs) (take (size zs).-1 zs)) mvn_logpdf p.1 (sv_pred F b p.2) 0 (Some inv_chol_Q) false
  + sv_log_likelihood zs ys.

Section Kernels.
Variables (m0 : vec) (P0 F Q : mat) (b : vec).
(** kernels.py:74-81 (MALA). *)
Definition sv_full_log_pdf (ys xs : seq vec) : R := sv_log_pdf xs ys m0 (inv_chol P0) F (inv_chol Q) b.
(** kernels.py:106-119 (bootstrap); [x @ F.T] on a row is [F *m x]. *)
Definition sv_M0_rvs (eps : vec) : vec := m0 + cholesky P0 *m eps.
Definition sv_Mt_rvs (x_t_m_1 eps : vec) : vec := F *m x_t_m_1 + cholesky Q *m eps + b.
Definition sv_M0_logpdf (x : vec) : R := mvn_logpdf x m0 0 (Some (inv_chol P0)) false.
Definition sv_Mt_logpdf (x_t_m_1 x_t : vec) : R := mvn_logpdf x_t (F *m x_t_m_1 + b) 0 (Some (inv_chol Q)) false.
Definition sv_csmc_Gamma_0 (y0 x : vec) : R := sv_log_potential x y0 + sv_M0_logpdf x.
Definition sv_csmc_Gamma_t (x_t_m_1 x_t y : vec) : R := sv_log_potential x_t y + sv_Mt_logpdf x_t_m_1 x_t.
(** kernels.py:202-209 (MALA_CSMC) and 248-255 (RW_CSMC). *)
Definition sv_mala_Gamma_0 (y0 x : vec) : R := sv_log_potential x y0 + mvn_logpdf x m0 0 (Some (inv_chol P0)) false.
Definition sv_mala_Gamma_t (x_t_m_1 x_t y : vec) : R :=
  let x_pred := F *m x_t_m_1 + b in sv_log_potential x_t y + mvn_logpdf x_t x_pred 0 (Some (inv_chol Q)) false.
Definition sv_rw_Gamma_0 (y0 x : vec) : R := sv_log_potential x y0 + mvn_logpdf x m0 0 (Some (inv_chol P0)) false.
Definition sv_rw_Gamma_t (x_t_m_1 x_t y : vec) : R :=
  let x_pred := F *m x_t_m_1 + b in sv_log_potential x_t y + mvn_logpdf x_t x_pred 0 (Some (inv_chol Q)) false.
(** kernels.py:145-157 (TP_CSMC, ADAPTED_CSMC). *)
Definition sv_r0 (y0 x : vec) : R := sv_log_potential x y0.
Definition sv_rt (x y : vec) : R := sv_log_potential x y.
Definition sv_mut (x : vec) : vec := F *m x + b.
(** kernels.py:60. *)
Definition sv_log_pdf_ys (ys xs : seq vec) : R := sv_log_likelihood xs ys.

(** model.py:24-36, given the noises of one call (the initial one, then one pair per step). *)
Fixpoint sv_data_scan (x_k : vec) (inps : seq (vec * vec)) : seq (vec * vec) :=
  match inps with
  | [::] => [::]
  | (eps_x, eps_y) :: inps' =>
      let observation_scale : vec := \col_i exp (1 / 2%:R * x_k i 0) in
      let y_k := \col_i (observation_scale i 0 * eps_y i 0) in
      let x_kp1 := F *m x_k + b + cholesky Q *m eps_x in
      (x_k, y_k) :: sv_data_scan x_kp1 inps'
  end.
Definition sv_get_data (eps_0 : vec) (epss : seq (vec * vec)) : seq (vec * vec) :=
  sv_data_scan (m0 + cholesky P0 *m eps_0) epss.
End Kernels.

(** [jax.scipy.linalg.solve(A, B, assume_a="pos")], whose default is [lower=False]: it factorises
    the symmetric matrix given by the upper triangle of [A] and does not read the rest. *)
Definition from_upper (A : mat) : mat := \matrix_(i, j) (if (i <= j)%N then A i j else A j i).
Definition solve_pos (A B : mat) : mat := invmx (from_upper A) *m B.
(** model.py:18-22: the inverse factors returned by [get_data] ... *)
Definition sv_data_inv_chol (P : mat) : mat := solve_pos (cholesky P) 1%:M.
(** ... and experiment.py:193: the recorded energy. *)
Definition sv_energy (m0 : vec) (P0 F Q : mat) (b : vec) (samples ys : seq vec) : R :=
  sv_log_pdf samples ys m0 (sv_data_inv_chol P0) F (sv_data_inv_chol Q) b.
End Sv.

(** ** Random keys of the data generators and of one experiment *)
Section Keys.
(** Noises range over finite types standing for arrays of reals. *)

(** lgssm_scaling/model.py:8-13: [noise0] is the law of normal(d), [noises] that of
    normal(2, T, d); [build] is lines 12-22. *)
Definition lg_get_data_prog (N0 N1 : finType) (A : Type) (noise0 : N0 -> R) (noises : N1 -> R) (build : N0 -> N1 -> A) (key : key) : prog A :=
  let init_key := split key 0 in
  let sampling_key := split key 1 in
  do eps0 <- draw init_key noise0;
  do epss <- draw init_key noises;
  Ret (build eps0 epss).

(** stochastic_volatility/model.py:12-36: [fst], [obs], [next]: lines 24, 31, 32. *)
Definition sv_get_data_prog (N : finType) (S O : Type) (noise : N -> R) (fst : N -> S) (obs : S -> N -> O) (next : S -> N -> S)
    (key : key) (T : nat) : prog (S * seq (S * O)) :=
  let init_key := split key 0 in
  let sampling_key := split key 1 in
  do eps0 <- draw init_key noise;
  scan (fun x_k key_k =>
    let state_key := split key_k 0 in
    let observation_key := split key_k 1 in
    do eps_y <- draw observation_key noise;
    do eps_x <- draw state_key noise;
    Ret (next x_k eps_x, (x_k, obs x_k eps_y))) (fst eps0) [seq split sampling_key t | t <- iota 0 T].

(** lgssm_scaling/experiment.py:75, 110-150: [K] repetitions, each with its data, its [M] initial
    trajectories ([init]: one call, line 135) and [M] kernel steps. *)
Definition lg_one_experiment (D S A : Type) (get_data : Prog.key -> prog D) (init : Prog.key -> D -> prog (nat -> S))
    (kernel : D -> Prog.key -> S -> prog A) (key : key) (M : nat) : prog (unit * seq A) :=
  let data_key := split key 0 in
  let init_key := split key 1 in
  let sample_key := split key 2 in
  do data <- get_data data_key;
  do init_states <- init init_key data;
  scan (fun (_ : unit) m => do r <- kernel data (split sample_key m) (init_states m); Ret (tt, r)) tt (iota 0 M).
Definition lg_experiment (D S A : Type) (get_data : Prog.key -> prog D) (init : Prog.key -> D -> prog (nat -> S))
    (kernel : D -> Prog.key -> S -> prog A) (key : key) (K M : nat) : prog (unit * seq (seq A)) :=
  scan (fun (_ : unit) k => do r <- lg_one_experiment get_data init kernel (split key k) M; Ret (tt, r.2)) tt (iota 0 K).

(** stochastic_volatility/experiment.py:90, 124-184: data, initial trajectory (an unconditional
    cSMC pass), adaptation, [M] burn-in chains from the adapted state, [M] sampling chains. *)
Definition sv_one_experiment (D S P A : Type) (get_data : Prog.key -> prog D) (init : Prog.key -> D -> prog S)
    (adapt : D -> Prog.key -> S -> prog (S * P)) (burnin : D -> P -> Prog.key -> S -> prog S)
    (sample : D -> P -> Prog.key -> S -> prog A) (key : key) (M : nat) : prog (unit * seq A) :=
  let data_key := split key 0 in
  let init_key := split key 1 in
  let adaptation_key := split key 2 in
  let burnin_key := split key 3 in
  let sample_key := split key 4 in
  do data <- get_data data_key;
  do init_state <- init init_key data;
  do (adaptation_state, adapted_delta) <- adapt data adaptation_key init_state;
  do (_, burnin_states) <- scan (fun (_ : unit) m =>
    do s <- burnin data adapted_delta (split burnin_key m) adaptation_state; Ret (tt, s)) tt (iota 0 M);
  scan (fun (_ : unit) ms => do r <- sample data adapted_delta (split sample_key ms.1) ms.2; Ret (tt, r)) tt
    (zip (iota 0 M) burnin_states).
Definition sv_experiment (D S P A : Type) (get_data : Prog.key -> prog D) (init : Prog.key -> D -> prog S)
    (adapt : D -> Prog.key -> S -> prog (S * P)) (burnin : D -> P -> Prog.key -> S -> prog S)
    (sample : D -> P -> Prog.key -> S -> prog A) (key : key) (K M : nat) : prog (unit * seq (seq A)) :=
  scan (fun (_ : unit) k => do r <- sv_one_experiment get_data init adapt burnin sample (split key k) M; Ret (tt, r.2)) tt (iota 0 K).
End Keys.
