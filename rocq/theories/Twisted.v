(** * Twisted: model of /repo/gradient_csmc/t_atp_csmc_f.py, without its adaptation loop (Drivers.v).

    First the matrix computations, over the reals, then the kernel. *)
From Coq Require Import Reals.
From mathcomp Require Import all_ssreflect all_algebra.
From Verif Require Import RInst Prog Gauss Resampling Csmc AuxCsmc Kalman.

Set Implicit Arguments.
Unset Strict Implicit.
Unset Printing Implicit Defensive.
Import GRing.Theory Num.Theory Order.TTheory.
Local Open Scope ring_scope.

Section Formulas.
Variable d : nat.
Local Notation vec := 'cV[R]_d.
Local Notation mat := 'M[R]_d.
Local Notation dyn := (dyn d).

(** t_atp_csmc_f.py:323-324; [solve(A, B, assume_a="pos")] is [invmx A *m B]. *)
Definition get_gain (F Q P : mat) : mat := (invmx (F *m P *m F^T + Q) *m (P *m F^T))^T.

(** t_atp_csmc_f.py:306-317. *)
Definition reversed_body (carry : vec * mat) (f : dyn) : (vec * mat) * dyn :=
  let: (prev_m, prev_P) := carry in
  let: Dyn F Q b := f in
  let K := get_gain F Q prev_P in
  let Sigma := prev_P - K *m F *m prev_P in
  let Sigma := (1 / 2%:R) *: (Sigma + Sigma^T) in
  let mu := prev_m - K *m (F *m prev_m + b) in
  let m := F^T *m prev_m - F^T *m b in
  let P := F^T *m prev_P *m F + Q in
  ((m, (1 / 2%:R) *: (P + P^T)), Dyn K Sigma mu).

(** t_atp_csmc_f.py:299-320, [jax.lax.scan]. *)
Fixpoint get_reversed_dynamics (carry : vec * mat) (fs : seq dyn) : (vec * mat) * seq dyn :=
  match fs with
  | [::] => (carry, [::])
  | f :: fs' =>
      let: (carry, r) := reversed_body carry f in
      let: (final, rs) := get_reversed_dynamics carry fs' in
      (final, r :: rs)
  end.

(** The parameters (A, c, chol_E, inv_chol_E) of one proposal; at time 0, [A] is not read. *)
Record tprop := TProp { tA : mat; tc : vec; t_chol : mat; t_inv_chol : mat }.

(** t_atp_csmc_f.py:151-175 and the inverse factor of line 118;
    [solve_triangular(z, eye, lower=True)] is [invmx (tril z)]. *)
Definition make_proposal (mp : vec * mat) (rev : dyn) : tprop :=
  let: (t_m_u, t_P_u) := mp in
  let: Dyn rev_F rev_Q rev_b := rev in
  let S := rev_Q + rev_F *m t_P_u *m rev_F^T in
  let A := (invmx S *m (rev_F *m t_P_u))^T in
  let rev_x_hat := rev_F *m t_m_u + rev_b in
  let c := t_m_u - A *m rev_x_hat in
  let E := t_P_u - A *m S *m A^T in
  let E := (1 / 2%:R) *: (E + E^T) in
  TProp A c (cholesky E) (invmx (tril (cholesky E))).

(** t_atp_csmc_f.py:112-122: from the auxiliary variables [us] (times 0 .. T - 1) to the
    parameters of the proposals at time 0 and at times 1 .. T - 1. *)
Definition twisted_params (final : vec * mat) (rev_fs : seq dyn) (us : seq vec) (ells : seq R) : tprop * seq tprop :=
  let: (mT, PT) := final in
  let os := [seq Obs 1%:M ((sqrt (1 / 2%:R * ue.2) ^+ 2) *: 1%:M) 0 ue.1 | ue <- zip us ells] in
  let: (t_u, _) := filtering (rev os) mT PT (rev rev_fs) in
  let t_u := rev t_u in
  let: (t_m0_u, t_P0_u) := head (0, 0) t_u in
  (TProp 0 t_m0_u (cholesky t_P0_u) (invmx (tril (cholesky t_P0_u))),
   [seq make_proposal z.1 z.2 | z <- zip (behead t_u) rev_fs]).

(** t_atp_csmc_f.py:178-201: one row, given its noise [eps]. *)
Definition tM0_rvs (p : tprop) (eps : vec) : vec := tc p + t_chol p *m eps.
Definition tM0_logpdf (p : tprop) (x : vec) : R := mvn_logpdf x (tc p) 0 (Some (t_inv_chol p)) false.
Definition tMt_rvs (p : tprop) (x_prev eps : vec) : vec := (tA p *m x_prev + tc p) + t_chol p *m eps.
Definition tMt_logpdf (p : tprop) (x_prev x : vec) : R :=
  mvn_logpdf x (tA p *m x_prev + tc p) 0 (Some (t_inv_chol p)) false.

(** t_atp_csmc_f.py:204-225; [r], [g]: value and gradient of the potential at x. *)
Definition tcorrection (u x g : vec) (delta ell : R) : R :=
  - sqn (u - x - (1 / 2%:R * delta) *: g) / ell + sqn (u - x) / ell.
Definition tGamma_0 (p : tprop) (u : vec) (delta ell r : R) (g x : vec) : R :=
  r + (tcorrection u x g delta ell + tM0_logpdf p x).
Definition tGamma_t (p : tprop) (u : vec) (delta ell r : R) (g x_prev x : vec) : R :=
  r + (tcorrection u x g delta ell + tMt_logpdf p x_prev x).
End Formulas.

(** ** The functions of states of any abelian group *)
Section Functions.
Variables (X : zmodType) (n' : nat) (Q W : Type).
Local Notation pop := (pop X n').
Local Notation lwts := (lwts n').

(** The variables are described below, in Section Kernel. *)
Variables (ld0 : X -> R) (ld : Q -> X -> R).
Variables (scale0 : X -> X) (scale : Q -> X -> X).
Variables (lpdf0 : W -> X -> R) (lpdf : W -> X -> X -> R).
Variables (r0 : X -> R) (rt : X -> X -> Q -> R) (g0 : X -> X) (gt : X -> X -> Q -> X).

(** t_atp_csmc_f.py:99-104, [aux_vars[1:]]. *)
Fixpoint tw_aux (xm : X) (xs : seq X) (qs : seq Q) (es : seq X) : seq X :=
  match xs, qs, es with
  | x :: xs', q :: qs', e :: es' => (x + scale q (gt xm x q) + e) :: tw_aux x xs' qs' es'
  | _, _, _ => [::]
  end.

(** t_atp_csmc_f.py:185-187, 198-201, all rows. *)
Definition tw_M0_logpdf (w : W) (x : pop) : lwts := fun i => lpdf0 w (x i).
Definition tw_Mt_logpdf (xm x : pop) (w : W) : lwts := fun i => lpdf w (xm i) (x i).

(** t_atp_csmc_f.py:204-225. *)
Definition tw_Gamma_0 (w : W) (u x : X) : R :=
  r0 x + (ld0 (u - x - scale0 (g0 x)) - ld0 (u - x) + lpdf0 w x).
Definition tw_Gamma_t (xm x : X) (p : X * Q * W) : R :=
  let: (u, q, w) := p in
  rt xm x q + (ld q (u - x - scale q (gt xm x q)) - ld q (u - x) + lpdf w xm x).

End Functions.

(** ** The kernel *)
Section Kernel.
(** States form a finite abelian group standing for R^d. [Q]: settings of one time step
    (delta_t, ell_t, parameters of [rt]); [W]: parameters of one proposal. *)
Variables (X : finZmodType) (n' : nat) (Q W : Type).
Local Notation n := n'.+1.
Local Notation pop := (pop X n').
Local Notation lwts := (lwts n').

(** [noise], [ld], [scale]: law of [aux_std_devs[t] * normal(d)], [z -> - sum(z ** 2) / ell_t],
    [g -> 0.5 * delta_t * g];
    [tparams us]: the proposals computed from all the auxiliary variables (twisted_params);
    [law0 w], [law w x_prev]: law of one row of M0_rvs and Mt_rvs, [lpdf0], [lpdf]: M0_logpdf and
    Mt_logpdf. *)
Variables (noise0 ld0 : X -> R) (noise ld : Q -> X -> R).
Variables (scale0 : X -> X) (scale : Q -> X -> X).
Variable tparams : X -> seq X -> W * seq W.
Variables (law0 lpdf0 : W -> X -> R) (law lpdf : W -> X -> X -> R).
Variables (r0 : X -> R) (rt : X -> X -> Q -> R) (g0 : X -> X) (gt : X -> X -> Q -> X).
Variable resampling_func : resampler n.
Variable ancestor_move_func : mover n.

Local Notation tw_aux := (tw_aux scale gt).
Local Notation tw_M0_logpdf := (tw_M0_logpdf lpdf0).
Local Notation tw_Mt_logpdf := (tw_Mt_logpdf lpdf).
Local Notation tw_Gamma_0 := (tw_Gamma_0 ld0 scale0 lpdf0 r0 g0).
Local Notation tw_Gamma_t := (tw_Gamma_t ld scale lpdf rt gt).

(** t_atp_csmc_f.py:178-182, 190-195, all rows. *)
Definition tw_M0_rvs (w : W) (key : key) : prog pop := draw key (fun x : pop => \prod_i law0 w (x i)).
Definition tw_Mt_rvs (key : key) (xm : pop) (w : W) : prog pop := draw key (fun x : pop => \prod_i law w (xm i) (x i)).
Definition tw_model (w0 : W) (u0 : X) : model X n' W (X * Q * W) :=
  Model (tw_M0_rvs w0) (tw_M0_logpdf w0) (tw_Gamma_0 w0 u0) tw_Mt_rvs tw_Mt_logpdf tw_Gamma_t.

(** t_atp_csmc_f.py:96-146; [key_csmc, _, key_aux = split(key, 3)]. *)
Definition tw_kernel (key : key) (x0 : X) (xs : seq X) (b0 : 'I_n) (bs : seq 'I_n) (qs : seq Q)
  (backward : bool) : prog (seq X * seq 'I_n * seq lwts) :=
  let key_csmc := split key 0 in let key_aux := split key 2 in
  do (e0, es) <- normals key_aux noise0 [seq noise q | q <- qs];
  let u0 := x0 + scale0 (g0 x0) + e0 in
  let us := tw_aux x0 xs qs es in
  let: (w0, ws) := tparams u0 us in
  kernel resampling_func ancestor_move_func (tw_model w0 u0) key_csmc x0 xs b0 bs
    ws (zip (zip us qs) ws) backward true.
End Kernel.
