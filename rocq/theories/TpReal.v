(** * TpReal: the functions of tp_csmc.py, atp_csmc_f.py and t_atp_csmc_f.py on R^d, i.e. TpCsmc.v
    and the kernel of Twisted.v with the formulas of Proposal.v, Gauss.v and Twisted.v. *)
From Coq Require Import Reals.
From mathcomp Require Import all_ssreflect all_algebra.
From Verif Require Import RInst Prog Gauss Resampling Csmc AuxCsmc Kalman Proposal TpCsmc Twisted.

Set Implicit Arguments.
Unset Strict Implicit.
Unset Printing Implicit Defensive.
Import GRing.Theory Num.Theory Order.TTheory.
Local Open Scope ring_scope.

Section Real.
Variables (d n' : nat) (Q : Type).
Local Notation vec := 'cV[R]_d.
Local Notation mat := 'M[R]_d.
Local Notation pop := (pop vec n').
Local Notation n := n'.+1.

(** Parameters of one time step: [delta_t], [ell_t], [Q_t] (P0 at time 0), its SVD, and the
    parameters of [mut] and [rt]. *)
Record step := Step { st_delta : R; st_ell : R; st_Q : mat; st_U : mat; st_G : 'rV[R]_d; st_q : Q }.

(** tp_csmc.py:102, atp_csmc_f.py:101; [U_t] is the transpose of [U] in the SVD of a symmetric
    matrix. *)
Definition step_prop (s : step) : params d := get_proposal_params (st_ell s) (st_U s) (st_G s) (st_U s)^T.
(** tp_csmc.py:104. *)
Definition step_gain (s : step) : mat := K_1 (step_prop s) *m K_2 (step_prop s).

Definition step_ld (s : step) : vec -> R := sizes_ld (st_delta s, st_ell s).
Definition step_scale (s : step) : vec -> vec := sizes_step (st_delta s, st_ell s).

(** tp_csmc.py:58-62, 162, 170, atp_csmc_f.py:57-61, 201, 211. *)
Definition step_prior (s : step) (m x : vec) : R :=
  mvn_logpdf x m 0 (Some (invmx (tril (cholesky (st_Q s))))) false.

(** atp_csmc_f.py:176-180, 192-196: [prop_logpdf] as a function of [x - mean]. *)
Definition step_pld (s : step) (z : vec) : R := mvn_logpdf z 0 0 (Some (p_chol_inv (step_prop s))) false.

Variables (mu0 : vec) (mut : vec -> Q -> vec).
Variables (r0 : vec -> R) (rt : vec -> vec -> Q -> R) (g0 : vec -> vec) (gt : vec -> vec -> Q -> vec).

Definition step_mean0 (s : step) (u : vec) : vec := prop_mean (step_prop s) u mu0.
Definition step_mean (s : step) (xm u : vec) : vec := prop_mean (step_prop s) u (mut xm (st_q s)).

(** tp_csmc.py:133-139: [get_log_H_bis] with the offsets [mu0 - K mu0]. *)
Definition step_H0 (s : step) (x : pop) (phi : vec) (i : 'I_n) : R :=
  let ds := mu0 - step_gain s *m mu0 in
  get_log_H_bis x (fun=> ds) (step_gain s) (p_K_inv (step_prop s)) (st_ell s) (x i) ds phi.
(** tp_csmc.py:149-159. *)
Definition step_H (s : step) (xm x : pop) (phi : vec) (i : 'I_n) : R :=
  let ds i := mut (xm i) (st_q s) - step_gain s *m mut (xm i) (st_q s) in
  get_log_H_bis x ds (step_gain s) (p_K_inv (step_prop s)) (st_ell s) (x i) (ds i) phi.

Definition step_prior0 (s : step) (x : vec) : R := step_prior s mu0 x.
Definition step_prior_t (xm x : vec) (s : step) : R := step_prior s (mut xm (st_q s)) x.
Definition step_rt (xm x : vec) (s : step) : R := rt xm x (st_q s).
Definition step_gt (xm x : vec) (s : step) : vec := gt xm x (st_q s).

(** [M0_rvs] and [Mt_rvs] given the standard normal arrays [eps key] drawn with each key
    (atp_csmc_f.py:165-173, 183-189, tp_csmc.py:127-131, 142-147). *)
Definition step_rvs0 (eps : key -> pop) (s0 : step) (u0 : vec) (key : key) : prog pop :=
  Ret [ffun i => prop_rvs (step_prop s0) u0 mu0 (eps key i)].
Definition step_rvs (eps : key -> pop) (key : key) (xm : pop) (p : vec * step) : prog pop :=
  Ret [ffun i => prop_rvs (step_prop p.2) p.1 (mut (xm i) (st_q p.2)) (eps key i)].

(** The functions passed to csmc.kernel by tp_csmc.py.  Sampling real
    vectors is outside [prog]: the samplers [rvs0] and [rvs] are parameters. *)
Definition tp_vec (s0 : step) (rvs0 : key -> prog pop)
  (rvs : key -> pop -> vec * step -> prog pop) : model vec n' (vec * step) step :=
  Model rvs0 (tp_M0_logpdf (step_scale s0) g0 (step_H0 s0)) (tp_Gamma_0 (step_prior0 s0) r0)
        rvs (tp_Mt_logpdf step_scale step_gt step_H) (tp_Gamma_t step_prior_t step_rt).

(** The same for atp_csmc_f.py, given [u0]. *)
Definition atp_vec (s0 : step) (u0 : vec) (rvs0 : key -> prog pop)
  (rvs : key -> pop -> vec * step -> prog pop) : model vec n' (vec * step) (vec * step) :=
  Model rvs0 (atp_M0_logpdf (step_pld s0) (step_mean0 s0) u0)
        (atp_Gamma_0 (step_ld s0) (step_scale s0) (step_prior0 s0) r0 g0 u0)
        rvs (atp_Mt_logpdf step_pld step_mean)
        (atp_Gamma_t step_ld step_scale step_prior_t step_rt step_gt).

(** The functions passed to csmc.kernel when the prior is the proposal
    (experiments/stochastic_volatility/kernels.py:106-119), for any mean [mut] and potential [rt];
    [eps s key] is the standard normal array drawn with [key]. *)
Definition prior_vec (eps : step -> key -> pop) (s0 : step) : model vec n' step step :=
  Model (fun key => Ret [ffun i => rvs_of (eps s0 key i) mu0 (cholesky (st_Q s0))])
        (fun x i => step_prior0 s0 (x i)) (tp_Gamma_0 (step_prior0 s0) r0)
        (fun key xm s => Ret [ffun i => rvs_of (eps s key i) (mut (xm i) (st_q s)) (cholesky (st_Q s))])
        (fun xm x s i => step_prior_t (xm i) (x i) s) (tp_Gamma_t step_prior_t step_rt).
End Real.
