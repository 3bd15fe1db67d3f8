(** * AuxCsmc: model of the kernels with auxiliary variables of
    /repo/gradient_csmc/rw_csmc.py, l_csmc_f.py and al_csmc_f.py. *)
From Coq Require Import Reals.
From mathcomp Require Import all_ssreflect all_algebra.
From Verif Require Import RInst Prog Resampling Csmc.

Set Implicit Arguments.
Unset Strict Implicit.
Unset Printing Implicit Defensive.
Import GRing.Theory Num.Theory Order.TTheory.
Local Open Scope ring_scope.

(** [jax.random.normal(key, shape=(T, ...))] times per-step standard deviations:
    one draw, independent over the first axis, entry [t] with law [nus_t].  The
    result is returned as head and tail (T >= 1). *)
Definition normals (Y : finType) (key : key) (nu0 : Y -> R) (nus : seq (Y -> R)) : prog (Y * seq Y) :=
  do r <- draw key (fun r : Y * (size nus).-tuple Y =>
            nu0 r.1 * \prod_(i < size nus) nth nu0 nus i (tnth r.2 i));
  Ret (r.1, tval r.2).

(** The guard at the end of rw_csmc.py:125-128; [finite x] is [jnp.isfinite] on
    all coordinates of [x]. *)
Definition rw_guard (X I L : Type) (finite : X -> bool) (xstar : seq X) (bstar : seq I)
  (r : seq X * seq I * L) : seq X * seq I * L :=
  let: (xs, Bs, lws) := r in
  let is_any_nan := ~~ all finite xs in
  ((if is_any_nan then xstar else xs), (if is_any_nan then bstar else Bs), lws).

Section Sweep.
Variables (X : Type) (n' : nat).
Local Notation n := n'.+1.
Local Notation pop := (pop X n').
Local Notation anc := (anc n').
Local Notation lwts := (lwts n').

Variable resampling_func : resampler n.
Variable ancestor_move_func : mover n.

(** ** The sweep shared by the three files
    (rw_csmc.py:79-123, l_csmc_f.py:126-169, al_csmc_f.py:130-173). *)

(** One entry of the [inputs] tuple. *)
Record sinp (PP : Type) := SInp { s_p : PP; s_x : pop; s_bm1 : 'I_n; s_b : 'I_n; s_key : key }.

Fixpoint sinputs (PP : Type) (pp : seq PP) (xs : seq pop) (b : 'I_n) (bs : seq 'I_n) (key : key)
  (c : nat) : seq (sinp PP) :=
  match pp, xs, bs with
  | p :: pp', x :: xs', b' :: bs' => SInp p x b b' (split key c) :: sinputs pp' xs' b' bs' key c.+1
  | _, _, _ => [::]
  end.

(** [log_w - jnp.max(log_w)]. *)
Definition minus_max (lw : lwts) : lwts := fun i => lw i - amax lw.

(** [Wt] computes the log-weights of step t, [post] normalises them (minus the max,
    or to a log-probability vector in rw_csmc.py:99), [wof] turns them into
    weights.  Unlike the code, the output also carries [x_t], which the code
    keeps in the array [xs] it scans over. *)
Definition aux_body (PP : Type) (Wt : pop -> pop -> PP -> lwts) (post : lwts -> lwts)
  (wof : lwts -> 'I_n -> R) (carry : ('I_n -> R) * pop) (i : sinp PP)
  : prog ((('I_n -> R) * pop) * (lwts * anc * pop)) :=
  let: (w_t_m_1, x_t_m_1) := carry in
  do A_t <- resampling_func (s_key i) w_t_m_1 (s_bm1 i) (s_b i) true;
  let x_t_m_1 := take_ax x_t_m_1 A_t in
  let log_w_t := post (Wt x_t_m_1 (s_x i) (s_p i)) in
  Ret ((wof log_w_t, s_x i), (log_w_t, A_t, s_x i)).

Definition aux_forward (PP : Type) (W0 : pop -> lwts) (Wt : pop -> pop -> PP -> lwts)
  (post : lwts -> lwts) (wof : lwts -> 'I_n -> R)
  (key : key) (b0 : 'I_n) (bs : seq 'I_n) (x0 : pop) (xs : seq pop) (pp : seq PP) : prog (fwd_out X n') :=
  let lw0 := minus_max (W0 x0) in
  do (_, outs) <- scan (aux_body Wt post wof) (normalize lw0, x0) (sinputs pp xs b0 bs key 3);
  Ret (lw0, x0, outs).

(** The call of a backward pass ending the three kernels. *)
Definition aux_backward (QQ : Type) (Gam : X -> X -> QQ -> R) (key : key) (bT : 'I_n) (qq : seq QQ)
  (backward : bool) (o : fwd_out X n') : prog (seq X * seq 'I_n * seq lwts) :=
  do (xs, Bs) <- (if backward then backward_sampling_pass ancestor_move_func Gam (split key 2) qq bT o true
                  else backward_scanning_pass ancestor_move_func (split key 2) bT o);
  Ret (xs, Bs, unzip1 (gens o)).

End Sweep.

Section Functions.
(** States form an abelian group, for instance R^d: the code only adds and subtracts states. *)
Variables (X : zmodType) (n' : nat) (Q : Type).
Local Notation n := n'.+1.
Local Notation pop := (pop X n').
Local Notation anc := (anc n').
Local Notation lwts := (lwts n').

(** Per-time settings (delta_t, ell_t) range over a type [setting];
    [ld s z] is [- sum(z ** 2) / ell_t];
    [scale s g] is [0.5 * delta_t * g];
    [logH s xs phi x] is [log_H_phi] (l_csmc_f.py:75-78): a function of the mean of
    the generation [xs], the gradient shift [phi] and the particle [x]. *)
Variables (setting : Type) (ld : setting -> X -> R) (scale : setting -> X -> X).
Variable logH : setting -> pop -> X -> X -> R.

Variables (Gamma_0 : X -> R) (Gamma_t : X -> X -> Q -> R).
(** [jax.grad(Gamma_0)], [jax.grad(Gamma_t, 1)]: arbitrary functions here. *)
Variables (Gamma_0_grad : X -> X) (Gamma_t_grad : X -> X -> Q -> X).

(** ** Auxiliary variables and proposals *)

(** [x_star + noise] (rw_csmc.py:68), times 1 .. T - 1. *)
Fixpoint rw_aux (xs es : seq X) : seq X :=
  match xs, es with x :: xs', e :: es' => (x + e) :: rw_aux xs' es' | _, _ => [::] end.

(** [x_star + 0.5 * deltas * grad + noise] (l_csmc_f.py:105-113,
    al_csmc_f.py:112-119), times 1 .. T - 1; [xm] is the previous state. *)
Fixpoint grad_aux (xm : X) (xs : seq X) (ss : seq setting) (qs : seq Q) (es : seq X) : seq X :=
  match xs, ss, qs, es with
  | x :: xs', s :: ss', q :: qs', e :: es' =>
      (x + scale s (Gamma_t_grad xm x q) + e) :: grad_aux x xs' ss' qs' es'
  | _, _, _, _ => [::]
  end.

(** [xs = aux_vars[:, None, :] + noise; xs[t, b_star[t]] = x_star[t]]
    (rw_csmc.py:71-76, l_csmc_f.py:115-120, al_csmc_f.py:119-124). *)
Definition mk_pop (u : X) (e : pop) (b : 'I_n) (x : X) : pop := upd [ffun i => u + e i] b x.

Fixpoint mk_pops (us : seq X) (es : seq pop) (bs : seq 'I_n) (xs : seq X) : seq pop :=
  match us, es, bs, xs with
  | u :: us', e :: es', b :: bs', x :: xs' => mk_pop u e b x :: mk_pops us' es' bs' xs'
  | _, _, _, _ => [::]
  end.

(** l_csmc_f.py:81-97. *)
Definition l_Gamma_0_tilde (s0 : setting) (x0 : pop) : lwts := fun i =>
  Gamma_0 (x0 i) + logH s0 x0 (scale s0 (Gamma_0_grad (x0 i))) (x0 i).

Definition l_Gamma_t_tilde (xm xt : pop) (p : setting * Q) : lwts := fun i =>
  Gamma_t (xm i) (xt i) p.2
  + logH p.1 xt (scale p.1 (Gamma_t_grad (xm i) (xt i) p.2)) (xt i).

(** al_csmc_f.py:70-103. *)
Definition al_Gamma_0_tilde (s0 : setting) (u0 : X) (x0 : X) : R :=
  Gamma_0 x0 + ld s0 (u0 - x0 - scale s0 (Gamma_0_grad x0)).

Definition al_G_0_tilde (s0 : setting) (u0 : X) (x0 : pop) : lwts := fun i =>
  al_Gamma_0_tilde s0 u0 (x0 i) - ld s0 (x0 i - u0).

Definition al_Gamma_t_tilde (xm x : X) (p : setting * X * Q) : R :=
  let: (s, u, q) := p in
  Gamma_t xm x q + ld s (u - x - scale s (Gamma_t_grad xm x q)).

Definition al_G_t_tilde (xm xt : pop) (p : setting * X * Q) : lwts := fun i =>
  al_Gamma_t_tilde (xm i) (xt i) p - ld p.1.1 (xt i - p.1.2).

(** ** The three kernels after their draws of noise, on given particles [y0], [ys]
    (rw_csmc.py:79-124, l_csmc_f.py:126-169, al_csmc_f.py:126-173).  The kernels below,
    on finite groups, are the draws of noise followed by these programs. *)
Variable resampling_func : resampler n.
Variable ancestor_move_func : mover n.

Definition rw_sweep (key : key) (b0 : 'I_n) (bs : seq 'I_n) (y0 : pop) (ys : seq pop) (qs : seq Q)
  (backward : bool) : prog (seq X * seq 'I_n * seq lwts) :=
  do o <- aux_forward resampling_func (fun x i => Gamma_0 (x i)) (fun xm xt q i => Gamma_t (xm i) (xt i) q)
    (@normalize_log n) (fun lw i => exp (lw i)) key b0 bs y0 ys qs;
  aux_backward ancestor_move_func Gamma_t key (last b0 bs) qs backward o.

Definition l_sweep (key : key) (b0 : 'I_n) (bs : seq 'I_n) (y0 : pop) (ys : seq pop)
  (s0 : setting) (ss : seq setting) (qs : seq Q)
  (backward : bool) : prog (seq X * seq 'I_n * seq lwts) :=
  do o <- aux_forward resampling_func (l_Gamma_0_tilde s0) l_Gamma_t_tilde (@minus_max n') (@normalize n)
    key b0 bs y0 ys (zip ss qs);
  aux_backward ancestor_move_func Gamma_t key (last b0 bs) qs backward o.

Definition al_sweep (key : key) (b0 : 'I_n) (bs : seq 'I_n) (y0 : pop) (ys : seq pop)
  (u0 : X) (us : seq X) (s0 : setting) (ss : seq setting) (qs : seq Q)
  (backward : bool) : prog (seq X * seq 'I_n * seq lwts) :=
  do o <- aux_forward resampling_func (al_G_0_tilde s0 u0) al_G_t_tilde (@minus_max n') (@normalize n)
    key b0 bs y0 ys (zip (zip ss us) qs);
  aux_backward ancestor_move_func al_Gamma_t_tilde key (last b0 bs) (zip (zip ss us) qs) backward o.

End Functions.

Section Aux.
(** Here states form a finite abelian group, standing for R^d;
    [noise s] is the law of [aux_std_devs[t] * normal(d)].  Noise laws and functions on
    states are arbitrary. *)
Variables (X : finZmodType) (n' : nat) (Q : Type).
Local Notation n := n'.+1.
Local Notation pop := (pop X n').
Local Notation anc := (anc n').
Local Notation lwts := (lwts n').

Variables (setting : Type) (noise ld : setting -> X -> R) (scale : setting -> X -> X).
Variable logH : setting -> pop -> X -> X -> R.

Variable resampling_func : resampler n.
Variable ancestor_move_func : mover n.
Variables (Gamma_0 : X -> R) (Gamma_t : X -> X -> Q -> R).
(** [jax.grad(Gamma_0)], [jax.grad(Gamma_t, 1)]: arbitrary functions here. *)
Variables (Gamma_0_grad : X -> X) (Gamma_t_grad : X -> X -> Q -> X).

Local Notation aux_forward := (aux_forward resampling_func).
Local Notation aux_backward := (aux_backward ancestor_move_func).
Local Notation l_Gamma_0_tilde := (l_Gamma_0_tilde scale logH Gamma_0 Gamma_0_grad).
Local Notation l_Gamma_t_tilde := (l_Gamma_t_tilde scale logH Gamma_t Gamma_t_grad).
Local Notation al_Gamma_t_tilde := (al_Gamma_t_tilde ld scale Gamma_t Gamma_t_grad).
Local Notation al_G_0_tilde := (al_G_0_tilde ld scale Gamma_0 Gamma_0_grad).
Local Notation al_G_t_tilde := (al_G_t_tilde ld scale Gamma_t Gamma_t_grad).
Local Notation grad_aux := (grad_aux scale Gamma_t_grad).

(** Law of the proposal noise [aux_std_devs[t] * normal((N + 1, d))]. *)
Definition iid (nu : X -> R) : pop -> R := fun p => \prod_i nu (p i).

(** ** rw_csmc.py:14-128 *)
Definition rw_forward (key : key) (x0 : X) (xs : seq X) (b0 : 'I_n) (bs : seq 'I_n)
  (s0 : setting) (ss : seq setting) (qs : seq Q) : prog (fwd_out X n') :=
  do (e0, es) <- normals (split key 1) (noise s0) [seq noise s | s <- ss];
  let u0 := x0 + e0 in
  let us := rw_aux xs es in
  do (p0, ps) <- normals (split key 0) (iid (noise s0)) [seq iid (noise s) | s <- ss];
  aux_forward (fun x i => Gamma_0 (x i)) (fun xm xt q i => Gamma_t (xm i) (xt i) q)
    (@normalize_log n) (fun lw i => exp (lw i))
    key b0 bs (mk_pop u0 p0 b0 x0) (mk_pops us ps bs xs) qs.

Definition rw_kernel (finite : X -> bool) (key : key) (x0 : X) (xs : seq X) (b0 : 'I_n) (bs : seq 'I_n)
  (s0 : setting) (ss : seq setting) (qs : seq Q) (backward : bool)
  : prog (seq X * seq 'I_n * seq lwts) :=
  do o <- rw_forward key x0 xs b0 bs s0 ss qs;
  do r <- aux_backward Gamma_t key (last b0 bs) qs backward o;
  Ret (rw_guard finite (x0 :: xs) (b0 :: bs) r).

(** ** l_csmc_f.py:14-171 *)
Definition l_forward (key : key) (x0 : X) (xs : seq X) (b0 : 'I_n) (bs : seq 'I_n)
  (s0 : setting) (ss : seq setting) (qs : seq Q) : prog (fwd_out X n') :=
  do (e0, es) <- normals (split key 1) (noise s0) [seq noise s | s <- ss];
  let u0 := x0 + scale s0 (Gamma_0_grad x0) + e0 in
  let us := grad_aux x0 xs ss qs es in
  do (p0, ps) <- normals (split key 0) (iid (noise s0)) [seq iid (noise s) | s <- ss];
  aux_forward (l_Gamma_0_tilde s0) l_Gamma_t_tilde (@minus_max n') (@normalize n)
    key b0 bs (mk_pop u0 p0 b0 x0) (mk_pops us ps bs xs) (zip ss qs).

Definition l_kernel (key : key) (x0 : X) (xs : seq X) (b0 : 'I_n) (bs : seq 'I_n)
  (s0 : setting) (ss : seq setting) (qs : seq Q) (backward : bool)
  : prog (seq X * seq 'I_n * seq lwts) :=
  do o <- l_forward key x0 xs b0 bs s0 ss qs;
  aux_backward Gamma_t key (last b0 bs) qs backward o.

(** ** al_csmc_f.py:14-175 *)
Definition al_forward (key : key) (x0 : X) (xs : seq X) (b0 : 'I_n) (bs : seq 'I_n)
  (s0 : setting) (ss : seq setting) (qs : seq Q) : prog (fwd_out X n' * seq (setting * X * Q)) :=
  do (e0, es) <- normals (split key 1) (noise s0) [seq noise s | s <- ss];
  let u0 := x0 + scale s0 (Gamma_0_grad x0) + e0 in
  let us := grad_aux x0 xs ss qs es in
  do (p0, ps) <- normals (split key 0) (iid (noise s0)) [seq iid (noise s) | s <- ss];
  let params := zip (zip ss us) qs in
  do o <- aux_forward (al_G_0_tilde s0 u0) al_G_t_tilde (@minus_max n') (@normalize n)
    key b0 bs (mk_pop u0 p0 b0 x0) (mk_pops us ps bs xs) params;
  Ret (o, params).

Definition al_kernel (key : key) (x0 : X) (xs : seq X) (b0 : 'I_n) (bs : seq 'I_n)
  (s0 : setting) (ss : seq setting) (qs : seq Q) (backward : bool)
  : prog (seq X * seq 'I_n * seq lwts) :=
  do (o, params) <- al_forward key x0 xs b0 bs s0 ss qs;
  aux_backward al_Gamma_t_tilde key (last b0 bs) params backward o.

End Aux.
