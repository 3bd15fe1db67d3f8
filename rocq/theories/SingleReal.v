(** * SingleReal: mala.py, tp.py and imh.py with every call of a sampler observed.
    All points [y] are given: the current state is [y b], the proposals are the others.
    Whole trajectories are vectors of length [d] (T times the dimension of a state). *)
From Coq Require Import Reals.
From mathcomp Require Import all_ssreflect all_algebra.
From Verif Require Import RInst Prog Resampling Gauss GaussSpec Kalman KalmanSpec Single DensitySpec.

Set Implicit Arguments.
Unset Strict Implicit.
Unset Printing Implicit Defensive.
Import GRing.Theory Num.Theory Order.TTheory.
Local Open Scope ring_scope.

Section Single.
Variables (d N : nat).
Local Notation vec := 'cV[R]_d.
Local Notation pop := {ffun 'I_N.+1 -> vec}.
Variables (log_pdf : vec -> R) (grad : vec -> vec) (mv : mover N.+1) (delta : R) (key : key).

(** mala.py:57: [0.5 * delta * grad]. *)
Definition half_step (g : vec) : vec := (1 / 2%:R * delta) *: g.
(** Density of [std_dev * normal], [std_dev = sqrt(0.5 * delta)], without its constant (mala.py:51, 56-59). *)
Definition half_noise (z : vec) : R := exp (gauss_kernel (delta / 2%:R)%:M z 0).

(** The proposals (mala.py:59), in the order of the points. *)
Definition proposals (y : pop) (b : 'I_N.+1) : {ffun 'I_N -> vec} := [ffun j => y (lift b j)].

(** mala.py:56-57: the noise that gives [u]. *)
Definition observed_aux (u x : vec) : Prog.key -> prog vec :=
  fun k => let eps := u - (x + half_step (grad x)) in observed k (half_noise eps) eps.

(** mala.py:16-89. *)
Definition mala_vec (auxiliary : bool) (u : vec) (y : pop) (b : 'I_N.+1) : prog vec :=
  do r <- mala_run log_pdf grad (observed_aux u (y b))
    (fun k => let eps := [ffun j => proposals y b j - u] in observed k (\prod_j half_noise (eps j)) eps)
    (mala_ld delta) half_step (fun xs => mala_log_H xs (2%:R / delta) (1 / 2%:R * delta)) mv key auxiliary
    (tp1_init log_pdf grad (y b));
  Ret r.1.1.1.

End Single.

(** tp.py.  A trajectory of T.+1 vectors; [at_time x t] is x_t. *)
Section Tp.
Variables (d T N : nat).
Local Notation vec := 'cV[R]_d.
Local Notation mat := 'M[R]_d.
Local Notation traj := {ffun 'I_T.+1 -> vec}.
Definition at_time (x : traj) (t : nat) : vec := x (inord t).

Variables (log_pdf : traj -> R) (grad : traj -> traj) (mv : mover N.+1) (delta : R) (key : key).
Variables (m0 : vec) (P0 : mat) (F Qm : nat -> mat) (drift : nat -> vec).

(** tp.py:81: [0.5 * delta * grad_x_star]. *)
Definition traj_step (g : traj) : traj := [ffun t => (1 / 2%:R * delta) *: g t].
(** Density of [std_dev * eps_aux], without its constant (tp.py:78-81). *)
Definition traj_noise (z : traj) : R := exp (\sum_t gauss_kernel (delta / 2%:R)%:M (z t) 0).
(** tp.py:93-94: the sum over times and coordinates. *)
Definition traj_corr (u x g : traj) : R := \sum_t tp1_corr delta (u t) (x t) (g t).

(** tp.py:46-48, 83-86: the auxiliary variables are observations of the states, H = I, c = 0,
    R = 0.5 * delta * I; the filter and one posterior sample for the standard normal vectors [eps]. *)
Definition kalman_draw (u eps : traj) : traj :=
  let fs := [seq Dyn (F t) (Qm t) (drift t) | t <- iota 0 T] in
  let os := [seq Obs 1%:M (1 / 2%:R * delta)%:M 0 (at_time u t) | t <- iota 0 T.+1] in
  let: (filt, _) := filtering os m0 P0 fs in
  let s := sampling (mkseq (at_time eps) T.+1) filt fs in
  [ffun t : 'I_T.+1 => nth 0 s t].

(** tp.py:52-105.  The noises of the sampler are observed: [e] gives the noises of each proposal. *)
Definition tp1_traj (u : traj) (e : traj -> traj) (y : {ffun 'I_N.+1 -> traj}) (b : 'I_N.+1) : prog traj :=
  do r <- tp1_run log_pdf grad
    (fun k => let eps := u - (y b + traj_step (grad (y b))) in observed k (traj_noise eps) eps)
    traj_step mv traj_corr
    (fun k us =>
       let eps : {ffun 'I_N -> traj} := [ffun j => e (y (lift b j))] in
       do eps <- observed k (\prod_j exp (\sum_t std_logpdf (eps j t))) eps;
       Ret [ffun j => kalman_draw us (eps j)])
    key (tp1_init log_pdf grad (y b));
  Ret r.1.1.1.
End Tp.

(** imh.py:47-85; [prior] is the density of the law sampled by [prior_sampling]. *)
Definition imh_obs (X : Type) (N : nat) (log_pdf : X -> R) (mv : mover N.+1) (key : key) (prior : X -> R)
  (y : {ffun 'I_N.+1 -> X}) (b : 'I_N.+1) : prog X :=
  do r <- imh_kernel log_pdf
    (fun k => observed k (\prod_j prior (y (lift b j))) [ffun j : 'I_N => y (lift b j)]) mv key (imh_init log_pdf (y b));
  Ret r.1.1.
