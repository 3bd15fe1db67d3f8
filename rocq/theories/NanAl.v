(** * NanAl: model of /repo/gradient_csmc/al_csmc_f.py when the potentials may vanish.

    As NanRw.v.  A gradient is [None] when it has an entry that is not a finite number;
    the weights it enters are then NaN, and an auxiliary variable built with it makes all
    the particles of its time NaN. *)
From Coq Require Import Reals.
From mathcomp Require Import all_ssreflect all_algebra.
From Verif Require Import RInst Prog Resampling Csmc AuxCsmc NanCsmc NanRw.

Set Implicit Arguments.
Unset Strict Implicit.
Unset Printing Implicit Defensive.
Import GRing.Theory Num.Theory Order.TTheory.
Local Open Scope ring_scope.

Section Al.
(** States, noise laws, [ld] and [scale] as in AuxCsmc.v. *)
Variables (X : finZmodType) (n' : nat) (Q setting : Type).
Local Notation n := n'.+1.
Local Notation pop := (pop X n').
Local Notation anc := (anc n').
Local Notation lwts := (xlwts n').
Variables (noise ld : setting -> X -> R) (scale : setting -> X -> X).
Variable resampling_func : resampler n.
Variable ancestor_move_func : mover n.
Variables (Gamma_0 : X -> xnum) (Gamma_t : X -> X -> Q -> xnum).
(** al_csmc_f.py:67-68. *)
Variables (Gamma_0_grad : X -> option X) (Gamma_t_grad : X -> X -> Q -> option X).

(** [-sum((u - x - 0.5 * delta * grad) ** 2) / ell] (al_csmc_f.py:80,96). *)
Definition xgradient_log_pdf (s : setting) (u x : X) (grad : option X) : xnum :=
  if grad is Some g then Fin (ld s (u - x - scale s g)) else NaN.

(** al_csmc_f.py:74-81. *)
Definition xal_Gamma_0_tilde (s0 : setting) (u0 x0 : X) : xnum :=
  xadd (Gamma_0 x0) (xgradient_log_pdf s0 u0 x0 (Gamma_0_grad x0)).

(** al_csmc_f.py:83-86. *)
Definition xal_G_0_tilde (s0 : setting) (u0 : X) (x0 : pop) : lwts := fun i =>
  xsub (xal_Gamma_0_tilde s0 u0 (x0 i)) (Fin (ld s0 (x0 i - u0))).

(** al_csmc_f.py:88-97. *)
Definition xal_Gamma_t_tilde (xm x : X) (p : setting * X * Q) : xnum :=
  let: (s, u, q) := p in
  xadd (Gamma_t xm x q) (xgradient_log_pdf s u x (Gamma_t_grad xm x q)).

(** al_csmc_f.py:99-103. *)
Definition xal_G_t_tilde (xm xt : pop) (p : setting * X * Q) : lwts := fun i =>
  xsub (xal_Gamma_t_tilde (xm i) (xt i) p) (Fin (ld p.1.1 (xt i - p.1.2))).

(** al_csmc_f.py:113-117, times 1 .. T - 1: [None] if a gradient is undefined. *)
Fixpoint xgrad_aux (xm : X) (xs : seq X) (ss : seq setting) (qs : seq Q) (es : seq X) : option (seq X) :=
  match xs, ss, qs, es with
  | x :: xs', s :: ss', q :: qs', e :: es' =>
      if Gamma_t_grad xm x q is Some g
      then omap (cons (x + scale s g + e)) (xgrad_aux x xs' ss' qs' es')
      else None
  | _, _, _, _ => Some [::]
  end.

(** al_csmc_f.py:112-117, all times. *)
Definition xal_aux (x0 : X) (xs : seq X) (s0 : setting) (ss : seq setting) (qs : seq Q) (e0 : X) (es : seq X)
  : option (X * seq X) :=
  match Gamma_0_grad x0, xgrad_aux x0 xs ss qs es with
  | Some g, Some us => Some (x0 + scale s0 g + e0, us)
  | _, _ => None
  end.

(** al_csmc_f.py:138-154. *)
Definition xal_body (carry : ('I_n -> xnum) * pop) (i : sinp X n' (setting * X * Q))
  : prog (option ((('I_n -> xnum) * pop) * (lwts * anc * pop))) :=
  let: (w_t_m_1, x_t_m_1) := carry in
  odo A_t <- on_weights w_t_m_1 (fun w => resampling_func (s_key i) w (s_bm1 i) (s_b i) true);
  let x_t_m_1 := take_ax x_t_m_1 A_t in
  let log_w_t := xminus_max (xal_G_t_tilde x_t_m_1 (s_x i) (s_p i)) in
  Ret (Some ((xnormalize log_w_t, s_x i), (log_w_t, A_t, s_x i))).

(** al_csmc_f.py:130-164, on the particles [y0], [ys]. *)
Definition xal_forward (key : key) (b0 : 'I_n) (bs : seq 'I_n) (y0 : pop) (ys : seq pop)
  (u0 : X) (s0 : setting) (params : seq (setting * X * Q)) : prog (option (xfwd_out X n')) :=
  let lw0 := xminus_max (xal_G_0_tilde s0 u0 y0) in
  odo (_, outs) <- oscan xal_body (xnormalize lw0, y0) (sinputs params ys b0 bs key 3);
  Ret (Some (lw0, y0, outs)).

(** al_csmc_f.py:130-174. *)
Definition xal_sweep (key : key) (b0 : 'I_n) (bs : seq 'I_n) (y0 : pop) (ys : seq pop)
  (u0 : X) (us : seq X) (s0 : setting) (ss : seq setting) (qs : seq Q)
  (backward : bool) : prog (option (seq X * seq 'I_n * seq lwts)) :=
  let params := zip (zip ss us) qs in
  odo o <- xal_forward key b0 bs y0 ys u0 s0 params;
  odo (xs, Bs) <- (if backward
                   then xbackward_sampling_pass ancestor_move_func xal_Gamma_t_tilde (split key 2) params (last b0 bs) o true
                   else xbackward_scanning_pass ancestor_move_func (split key 2) (last b0 bs) o);
  Ret (Some (xs, Bs, unzip1 (xgens o))).

(** al_csmc_f.py:14-174.  When a gradient at the reference is undefined the run has no
    result: all weights of that time are NaN. *)
Definition xal_kernel (key : key) (x0 : X) (xs : seq X) (b0 : 'I_n) (bs : seq 'I_n)
  (s0 : setting) (ss : seq setting) (qs : seq Q) (backward : bool)
  : prog (option (seq X * seq 'I_n * seq lwts)) :=
  do (e0, es) <- normals (split key 1) (noise s0) [seq noise s | s <- ss];
  if xal_aux x0 xs s0 ss qs e0 es is Some (u0, us) then
    do (p0, ps) <- normals (split key 0) (iid (noise s0)) [seq iid (noise s) | s <- ss];
    xal_sweep key b0 bs (mk_pop u0 p0 b0 x0) (mk_pops us ps bs xs) u0 us s0 ss qs backward
  else Ret None.

(** utils/mcmc_utils.py:82: the kernel applied with one key after the other to what it
    returned before. *)
Fixpoint xal_runs (s0 : setting) (ss : seq setting) (qs : seq Q) (backward : bool) (keys : seq key)
  (s : seq X * seq 'I_n) : prog (option (seq X * seq 'I_n)) :=
  match keys, s with
  | [::], _ => Ret (Some s)
  | k :: ks, (x0 :: xs, b0 :: bs) =>
      odo r <- xal_kernel k x0 xs b0 bs s0 ss qs backward;
      xal_runs s0 ss qs backward ks r.1
  | _, _ => Ret None
  end.

End Al.
