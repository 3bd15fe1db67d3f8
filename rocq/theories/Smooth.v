(** * Smooth: model of /repo/gradient_csmc/al_csmc_s.py and atp_csmc_s.py, the kernels that use
    the gradient of the whole log-target.

    Both need T >= 2 time steps (they read [xs[1]], [b_star[1]], ...); T = 1 is not modelled.
    Reading past the end of an array is clamped, as [jnp] does. *)
From Coq Require Import Reals.
From mathcomp Require Import all_ssreflect all_algebra.
From Verif Require Import RInst Prog Resampling Csmc AuxCsmc.

Set Implicit Arguments.
Unset Strict Implicit.
Unset Printing Implicit Defensive.
Import GRing.Theory Num.Theory Order.TTheory.
Local Open Scope ring_scope.

(** ** Modified potentials *)
Section Tilde.
(** [X]: an abelian group (R^d in the code).  [setting]: step sizes (delta_t, ell_t);
    [ld s z]: [- sum(z ** 2) / ell_t]; [scale s g]: [0.5 * delta_t * g].
    [val0], [valt]: log-potentials, [g0], [ga], [gb]: gradients.  In al_csmc_s.py they are
    [Gamma_0], [Gamma_t] and their gradients with respect to x_0, x_(t-1), x_t.  In atp_csmc_s.py
    the values are [r0], [rt] plus [mvn_logpdf] of the prior, the gradients are those of [r0],
    [rt] only. *)
Variables (X : zmodType) (Q setting : Type).
Variables (ld : setting -> X -> R) (scale : setting -> X -> X).
Variables (val0 : X -> R) (valt : X -> X -> Q -> R).
Variables (g0 : X -> X) (ga gb : X -> X -> Q -> X).

(** al_csmc_s.py:83-86, atp_csmc_s.py:143-148. *)
Definition sm_Gamma_0 (p : setting * X) (x : X) : R :=
  let: (s, u) := p in
  let mean := x + scale s (g0 x) in
  val0 x + ld s (u - mean).

(** al_csmc_s.py:88-104, atp_csmc_s.py:150-167. *)
Definition sm_Gamma_1 (p0 : setting * X) (p1 : setting * X * Q) (x0 x1 : X) : R :=
  let: (s0, u0) := p0 in let: (s1, u1, q1) := p1 in
  let mean_0_1 := x0 + scale s0 (ga x0 x1 q1 + g0 x0) in
  let mean_1_1 := x1 + scale s1 (gb x0 x1 q1) in
  let mean_0_0 := x0 + scale s0 (g0 x0) in
  valt x0 x1 q1 + (ld s0 (u0 - mean_0_1) + ld s1 (u1 - mean_1_1) - ld s0 (u0 - mean_0_0)).

(** al_csmc_s.py:106-122, atp_csmc_s.py:169-187; [pm], [p]: params_t_m_1, params_t. *)
Definition sm_Gamma_t (pm p : setting * X * Q) (xmm xm x : X) : R :=
  let: (sm, um, qm) := pm in let: (s, u, q) := p in
  let mean_m_t := xm + scale sm (ga xm x q + gb xmm xm qm) in
  let mean_t_t := x + scale s (gb xm x q) in
  let mean_m_m := xm + scale sm (gb xmm xm qm) in
  valt xm x q + (ld sm (um - mean_m_t) + ld s (u - mean_t_t) - ld sm (um - mean_m_m)).

(** [jax.grad(full_func)(x_star)], al_csmc_s.py:154-160, atp_csmc_s.py:116-122: every state enters
    its own potential and the next one; [own] is the gradient of the former. *)
Fixpoint full_grad (own x : X) (xs : seq X) (qs : seq Q) : seq X :=
  match xs, qs with
  | x' :: xs', q :: qs' => (own + ga x x' q) :: full_grad (gb x x' q) x' xs' qs'
  | _, _ => [:: own]
  end.

(** [aux_vars = x_star + 0.5 * deltas * grad + noise], al_csmc_s.py:162-163,
    atp_csmc_s.py:124-125. *)
Fixpoint sm_aux (xs : seq X) (ss : seq setting) (gs es : seq X) : seq X :=
  match xs, ss, gs, es with
  | x :: xs', s :: ss', g :: gs', e :: es' => (x + scale s g + e) :: sm_aux xs' ss' gs' es'
  | _, _, _, _ => [::]
  end.
End Tilde.

(** Everything that does not draw noise, on any abelian group. *)
Section Sweep.
Variables (X : zmodType) (n' : nat) (Q setting : Type).
Local Notation n := n'.+1.
Local Notation pop := (pop X n').
Local Notation anc := (anc n').
Local Notation lwts := (lwts n').
Local Notation QQ := (setting * X * Q)%type.
Variables (ld : setting -> X -> R) (scale : setting -> X -> X).
Variables (val0 : X -> R) (valt : X -> X -> Q -> R).
Variables (g0 : X -> X) (ga gb : X -> X -> Q -> X).
Variable resampling_func : resampler n.
Variable ancestor_move_func : mover n.

Local Notation Gamma_0 := (sm_Gamma_0 ld scale val0 g0).
Local Notation Gamma_1 := (sm_Gamma_1 ld scale valt g0 ga gb).
Local Notation Gamma_t := (sm_Gamma_t ld scale valt ga gb).

(** ** Backward sampling, the same in both files:
    al_csmc_s.py:246-351, atp_csmc_s.py:303-408. *)
(** [(op_key, xs_t_m_1, xs_t, log_w_t, params_t, params_t_p_1, params_t_p_2)]. *)
Record binp := BInp { b_key : key; b_xm : pop; b_x : pop; b_lw : lwts; b_p : QQ; b_p1 : QQ; b_p2 : QQ }.

Definition bs_weights (i : binp) (x1 x2 : X) : 'I_n -> R :=
  normalize (fun l => Gamma_t (b_p1 i) (b_p2 i) (b_x i l) x1 x2
                      + Gamma_t (b_p i) (b_p1 i) (b_xm i l) (b_x i l) x1 + b_lw i l).

Definition bs_body (carry : X * X) (i : binp) : prog ((X * X) * (X * 'I_n)) :=
  let: (x_t_p_1, x_t_p_2) := carry in
  do B_t <- choice (b_key i) (bs_weights i x_t_p_1 x_t_p_2);
  let x_t := b_x i B_t in
  Ret ((x_t, x_t_p_1), (x_t, B_t)).

(** [p0]: Gamma_params_1[0]; [p1 :: ps]: Gamma_params_t; the slices of lines 320-325 (377-382) are
    written as index ranges, scanned in reverse. *)
Definition sm_backward_sampling (key : key) (p0 : setting * X) (p1 : QQ) (ps : seq QQ) (bT : 'I_n)
  (xs xm1 : seq pop) (lws : seq lwts) : prog (seq X * seq 'I_n) :=
  let T := size xs in
  let pr t := nth p1 (p1 :: ps) t in
  let x_ t := nth [ffun=> 0] xs t in
  let xm_ t := nth [ffun=> 0] xm1 t in
  let lw_ t := nth (fun=> 0) lws t in
  do (B_T, _) <- ancestor_move_func (split key (T - 1)) (normalize (lw_ (T - 1)%N)) bT;
  let x_T := x_ (T - 1)%N B_T in
  do B_T_m_1 <- choice (split key (T - 2)) (normalize (fun i =>
      Gamma_t (pr (size ps - 1)%N) (pr (size ps)) (xm_ (size xm1 - 2)%N i) (x_ (T - 2)%N i) x_T
      + lw_ (T - 2)%N i));
  let x_T_m_1 := x_ (T - 2)%N B_T_m_1 in
  do (_, outs) <- scan bs_body (x_T_m_1, x_T)
    [seq BInp (split key t) (xm_ t.-1) (x_ t) (lw_ t) (pr t.-1) (pr t) (pr t.+1) | t <- rev (iota 1 (T - 3))];
  let xs_out := rev (unzip1 outs) ++ [:: x_T_m_1; x_T] in
  let Bs := rev (unzip2 outs) ++ [:: B_T_m_1; B_T] in
  let y0 := nth 0 xs_out 0 in let y1 := nth 0 xs_out 1 in
  do B_0 <- choice (split key 0) (normalize (fun i =>
      Gamma_1 p0 p1 (x_ 0%N i) y0 + Gamma_t (pr 0%N) (pr 1%N) (x_ 0%N i) y0 y1 + lw_ 0%N i));
  Ret (x_ 0%N B_0 :: xs_out, B_0 :: Bs).

(** What the forward passes keep: time 0; [f_A0]: the ancestors of generation 1; [f_x0r]: x0 after
    resampling, [jnp.take(x0, A_0, axis=0)]; generation 1; [f_outs]: the output of the scan,
    [(log_w_t, A_t, x_t_m_1, x_t)]. *)
Record fwd := Fwd { f_lw0 : lwts; f_x0 : pop; f_A0 : anc; f_x0r : pop; f_lw1 : lwts; f_x1 : pop;
                    f_outs : seq (lwts * anc * pop * pop) }.

(** The arrays built by the [jnp.insert] calls, al_csmc_s.py:229-232, atp_csmc_s.py:279-286.
    The name x0 has been reassigned to the resampled x0 when [xs_m_1] is built. *)
Definition sm_log_ws (o : fwd) : seq lwts := f_lw0 o :: f_lw1 o :: [seq i.1.1.1 | i <- f_outs o].
Definition sm_As (o : fwd) : seq anc := f_A0 o :: [seq i.1.1.2 | i <- f_outs o].
Definition sm_xs (o : fwd) : seq pop := f_x0 o :: f_x1 o :: [seq i.2 | i <- f_outs o].
Definition sm_xs_m_1 (o : fwd) : seq pop :=
  take_ax (f_x0r o) (nth (f_A0 o) (sm_As o) 1) :: [seq i.1.2 | i <- f_outs o].

(** The generations as csmc.py's backward_scanning_pass receives them. *)
Definition sm_gens (o : fwd) : fwd_out X n' :=
  (f_lw0 o, f_x0 o, (f_lw1 o, f_A0 o, f_x1 o) :: [seq (i.1.1.1, i.1.1.2, i.2) | i <- f_outs o]).

(** The end of both kernels, al_csmc_s.py:234-243, atp_csmc_s.py:288-298. *)
Definition sm_finish (key : key) (p0 : setting * X) (p1 : QQ) (ps : seq QQ) (bT : 'I_n) (backward : bool)
  (o : fwd) : prog (seq X * seq 'I_n * seq lwts) :=
  do (xs, Bs) <- (if backward
    then sm_backward_sampling (split key 2) p0 p1 ps bT (sm_xs o) (sm_xs_m_1 o) (sm_log_ws o)
    else backward_scanning_pass ancestor_move_func (split key 2) bT (sm_gens o));
  Ret (xs, Bs, sm_log_ws o).

(** ** al_csmc_s.py:15-243 *)
(** al_csmc_s.py:128-146. *)
Definition als_G_0 (p0 : setting * X) (x0 : pop) : lwts := fun i =>
  Gamma_0 p0 (x0 i) - ld p0.1 (x0 i - p0.2).
Definition als_G_1 (p0 : setting * X) (p1 : QQ) (x0 x1 : pop) : lwts := fun i =>
  Gamma_1 p0 p1 (x0 i) (x1 i) - ld p1.1.1 (x1 i - p1.1.2).
Definition als_G_t (pm p : QQ) (xmm xm x : pop) : lwts := fun i =>
  Gamma_t pm p (xmm i) (xm i) (x i) - ld p.1.1 (x i - p.1.2).

(** One entry of the inputs of the scan, al_csmc_s.py:216-220. *)
Fixpoint als_inputs (pm : QQ) (ps : seq QQ) (xs : seq pop) (b : 'I_n) (bs : seq 'I_n) (key : key) (c : nat)
  : seq (sinp X n' (QQ * QQ)) :=
  match ps, xs, bs with
  | p :: ps', x :: xs', b' :: bs' => SInp (pm, p) x b b' (split key c) :: als_inputs p ps' xs' b' bs' key c.+1
  | _, _, _ => [::]
  end.

(** al_csmc_s.py:195-212; the output also carries [x_t], which the code keeps in the array it
    scans over. *)
Definition als_body (carry : ('I_n -> R) * pop * pop) (i : sinp X n' (QQ * QQ))
  : prog ((('I_n -> R) * pop * pop) * (lwts * anc * pop * pop)) :=
  let: (w_t_m_1, x_t_m_1, x_t_m_2) := carry in
  do A_t <- resampling_func (s_key i) w_t_m_1 (s_bm1 i) (s_b i) true;
  let x_t_m_2 := take_ax x_t_m_2 A_t in
  let x_t_m_1 := take_ax x_t_m_1 A_t in
  let log_w_t := minus_max (als_G_t (s_p i).1 (s_p i).2 x_t_m_2 x_t_m_1 (s_x i)) in
  Ret ((normalize log_w_t, s_x i, x_t_m_1), (log_w_t, A_t, x_t_m_1, s_x i)).

(** al_csmc_s.py:172-228, from the proposals [x0], [x1], [xs]. *)
Definition als_forward (key : key) (p0 : setting * X) (p1 : QQ) (ps : seq QQ) (b0 b1 : 'I_n) (bs : seq 'I_n)
  (x0 x1 : pop) (xs : seq pop) : prog fwd :=
  let lw0 := minus_max (als_G_0 p0 x0) in
  do A0 <- resampling_func (split key 3) (normalize lw0) b0 b1 true;
  let x0r := take_ax x0 A0 in
  let lw1 := als_G_1 p0 p1 x0r x1 in
  do (_, outs) <- scan als_body (normalize lw1, x1, x0r) (als_inputs p1 ps xs b1 bs key 4);
  Ret (Fwd lw0 x0 A0 x0r lw1 x1 outs).

(** The kernel after its draws of noise: from the proposals, the reference included, and the auxiliary
    variables; al_csmc_s.py:172-243. *)
Definition als_sweep (key : key) (b0 : 'I_n) (bs : seq 'I_n) (y0 : pop) (ys : seq pop) (u0 : X) (us : seq X)
  (s0 : setting) (ss : seq setting) (qs : seq Q) (backward : bool) : prog (seq X * seq 'I_n * seq lwts) :=
  match ys, zip (zip ss us) qs, bs with
  | y1 :: ys', p1 :: ps, b1 :: bs' =>
      do o <- als_forward key (s0, u0) p1 ps b0 b1 bs' y0 y1 ys';
      sm_finish key (s0, u0) p1 ps (last b1 bs') backward o
  | _, _, _ => Ret ([::], [::], [::])      (* T = 1 *)
  end.

End Sweep.

Section Kernels.
Variables (X : finZmodType) (n' : nat) (Q setting : Type).
Local Notation n := n'.+1.
Local Notation pop := (pop X n').
Local Notation anc := (anc n').
Local Notation lwts := (lwts n').
Local Notation QQ := (setting * X * Q)%type.
Variables (noise ld : setting -> X -> R) (scale : setting -> X -> X).
Variables (val0 : X -> R) (valt : X -> X -> Q -> R).
Variables (g0 : X -> X) (ga gb : X -> X -> Q -> X).
Variable resampling_func : resampler n.
Variable ancestor_move_func : mover n.

Local Notation Gamma_0 := (sm_Gamma_0 ld scale val0 g0).
Local Notation Gamma_1 := (sm_Gamma_1 ld scale valt g0 ga gb).
Local Notation Gamma_t := (sm_Gamma_t ld scale valt ga gb).
Local Notation als_forward := (als_forward ld scale val0 valt g0 ga gb resampling_func).
Local Notation sm_finish := (sm_finish ld scale valt g0 ga gb ancestor_move_func).
Local Notation fwd := (fwd X n').

(** The whole kernel; reference, indices, settings and parameters given as head (time 0) and
    tail; [mk_pops] inserts the reference (line 170). *)
Definition als_kernel (key : key) (x0 : X) (xs : seq X) (b0 : 'I_n) (bs : seq 'I_n) (s0 : setting)
  (ss : seq setting) (qs : seq Q) (backward : bool) : prog (seq X * seq 'I_n * seq lwts) :=
  do (e0, es) <- normals (split key 1) (noise s0) [seq noise s | s <- ss];
  let us := sm_aux scale (x0 :: xs) (s0 :: ss) (full_grad ga gb (g0 x0) x0 xs qs) (e0 :: es) in
  do (d0, ds) <- normals (split key 0) (iid (noise s0)) [seq iid (noise s) | s <- ss];
  match us, mk_pops us (d0 :: ds) (b0 :: bs) (x0 :: xs), zip (zip ss (behead us)) qs, bs with
  | u0 :: _, y0 :: y1 :: ys, p1 :: ps, b1 :: bs' =>
      do o <- als_forward key (s0, u0) p1 ps b0 b1 bs' y0 y1 ys;
      sm_finish key (s0, u0) p1 ps (last b1 bs') backward o
  | _, _, _, _ => Ret ([::], [::], [::])      (* T = 1 *)
  end.

(** ** atp_csmc_s.py:76-298 *)
(** [law0 p], [law p x_prev]: law of one row of M0_rvs, Mt_rvs given the auxiliary variable in [p];
    [lpdf0], [lpdf]: M0_logpdf, Mt_logpdf (models in Proposal.v and TpCsmc.v). *)
Variables (law0 lpdf0 : setting * X -> X -> R) (law lpdf : QQ -> X -> X -> R).

Definition atps_M0_rvs (p : setting * X) (key : key) : prog pop := draw key (fun x : pop => \prod_i law0 p (x i)).
Definition atps_Mt_rvs (key : key) (xm : pop) (p : QQ) : prog pop :=
  draw key (fun x : pop => \prod_i law p (xm i) (x i)).

(** [(Mt_params_t, params_t_m_1, params_t, b_star_t_m_1, b_star_t, key_t)], atp_csmc_s.py:267-271. *)
Record pinp := PInp { p_pm : QQ; p_p : QQ; p_bm1 : 'I_n; p_b : 'I_n; p_key : key }.

Fixpoint atps_inputs (pm : QQ) (ps : seq QQ) (b : 'I_n) (bs : seq 'I_n) (key : key) (c : nat) : seq pinp :=
  match ps, bs with
  | p :: ps', b' :: bs' => PInp pm p b b' (split key c) :: atps_inputs p ps' b' bs' key c.+1
  | _, _ => [::]
  end.

(** atp_csmc_s.py:241-263. *)
Definition atps_body (carry : ('I_n -> R) * pop * pop) (i : pinp)
  : prog ((('I_n -> R) * pop * pop) * (lwts * anc * pop * pop)) :=
  let: (w_t_m_1, x_t_m_1, x_t_m_2) := carry in
  let key_resampling := split (p_key i) 0 in let key_proposal := split (p_key i) 1 in
  do A_t <- resampling_func key_resampling w_t_m_1 (p_bm1 i) (p_b i) true;
  let x_t_m_2 := take_ax x_t_m_2 A_t in
  let x_t_m_1 := take_ax x_t_m_1 A_t in
  do x_t <- atps_Mt_rvs key_proposal x_t_m_1 (p_p i);
  let log_w_t := minus_max (fun l =>
    Gamma_t (p_pm i) (p_p i) (x_t_m_2 l) (x_t_m_1 l) (x_t l) - lpdf (p_p i) (x_t_m_1 l) (x_t l)) in
  Ret ((normalize log_w_t, x_t, x_t_m_1), (log_w_t, A_t, x_t_m_1, x_t)).

(** atp_csmc_s.py:210-278: the reference states are not passed. *)
Definition atps_forward (key : key) (p0 : setting * X) (p1 : QQ) (ps : seq QQ) (b0 b1 : 'I_n) (bs : seq 'I_n)
  : prog fwd :=
  let key_init := split key 0 in
  do x0 <- atps_M0_rvs p0 (split key_init 0);
  let lw0 := minus_max (fun l => Gamma_0 p0 (x0 l) - lpdf0 p0 (x0 l)) in
  do A0 <- resampling_func (split key 3) (normalize lw0) b0 b1 true;
  let x0r := take_ax x0 A0 in
  do x1 <- atps_Mt_rvs (split key_init 1) x0r p1;
  let lw1 := fun l => Gamma_1 p0 p1 (x0r l) (x1 l) - lpdf p1 (x0r l) (x1 l) in
  do (_, outs) <- scan atps_body (normalize lw1, x1, x0r) (atps_inputs p1 ps b1 bs key 4);
  Ret (Fwd lw0 x0 A0 x0r lw1 x1 outs).

(** The kernel returns [(xs, Bs)] only. *)
Definition atps_kernel (key : key) (x0 : X) (xs : seq X) (b0 : 'I_n) (bs : seq 'I_n) (s0 : setting)
  (ss : seq setting) (qs : seq Q) (backward : bool) : prog (seq X * seq 'I_n) :=
  do (e0, es) <- normals (split key 1) (noise s0) [seq noise s | s <- ss];
  let us := sm_aux scale (x0 :: xs) (s0 :: ss) (full_grad ga gb (g0 x0) x0 xs qs) (e0 :: es) in
  match us, zip (zip ss (behead us)) qs, bs with
  | u0 :: _, p1 :: ps, b1 :: bs' =>
      do o <- atps_forward key (s0, u0) p1 ps b0 b1 bs';
      do (xs, Bs, _) <- sm_finish key (s0, u0) p1 ps (last b1 bs') backward o;
      Ret (xs, Bs)
  | _, _, _ => Ret ([::], [::])      (* T = 1 *)
  end.

End Kernels.
