(** * NanL: model of /repo/gradient_csmc/l_csmc_f.py when the potentials may vanish.

    As NanAl.v: a gradient is [None] when it has an entry that is not a finite number; the
    weights it enters are then NaN, and an auxiliary variable built with it makes all the
    particles of its time NaN. *)
From Coq Require Import Reals.
From mathcomp Require Import all_ssreflect all_algebra.
From Verif Require Import RInst Prog Resampling Csmc AuxCsmc NanCsmc NanRw NanAl.

Set Implicit Arguments.
Unset Strict Implicit.
Unset Printing Implicit Defensive.
Import GRing.Theory Num.Theory Order.TTheory.
Local Open Scope ring_scope.

Section L.
(** States, noise laws, [scale] and [logH] as in AuxCsmc.v. *)
Variables (X : finZmodType) (n' : nat) (Q setting : Type).
Local Notation n := n'.+1.
Local Notation pop := (pop X n').
Local Notation anc := (anc n').
Local Notation lwts := (xlwts n').
Variables (noise : setting -> X -> R) (scale : setting -> X -> X).
Variable logH : setting -> pop -> X -> X -> R.
Variable resampling_func : resampler n.
Variable ancestor_move_func : mover n.
Variables (Gamma_0 : X -> xnum) (Gamma_t : X -> X -> Q -> xnum).
(** l_csmc_f.py:67-68. *)
Variables (Gamma_0_grad : X -> option X) (Gamma_t_grad : X -> X -> Q -> option X).

(** [Gamma_val + log_H_phi] of one particle (l_csmc_f.py:74-79). *)
Definition xl_H_phi (s : setting) (xs : pop) (x : X) (grad : option X) (val : xnum) : xnum :=
  xadd val (if grad is Some g then Fin (logH s xs (scale s g) x) else NaN).

(** l_csmc_f.py:81-86. *)
Definition xl_Gamma_0_tilde (s0 : setting) (x0 : pop) : lwts := fun i =>
  xl_H_phi s0 x0 (x0 i) (Gamma_0_grad (x0 i)) (Gamma_0 (x0 i)).

(** l_csmc_f.py:88-96. *)
Definition xl_Gamma_t_tilde (xm xt : pop) (p : setting * Q) : lwts := fun i =>
  xl_H_phi p.1 xt (xt i) (Gamma_t_grad (xm i) (xt i) p.2) (Gamma_t (xm i) (xt i) p.2).

(** l_csmc_f.py:134-150. *)
Definition xl_body (carry : ('I_n -> xnum) * pop) (i : sinp X n' (setting * Q))
  : prog (option ((('I_n -> xnum) * pop) * (lwts * anc * pop))) :=
  let: (w_t_m_1, x_t_m_1) := carry in
  odo A_t <- on_weights w_t_m_1 (fun w => resampling_func (s_key i) w (s_bm1 i) (s_b i) true);
  let x_t_m_1 := take_ax x_t_m_1 A_t in
  let log_w_t := xminus_max (xl_Gamma_t_tilde x_t_m_1 (s_x i) (s_p i)) in
  Ret (Some ((xnormalize log_w_t, s_x i), (log_w_t, A_t, s_x i))).

(** l_csmc_f.py:126-160, on the particles [y0], [ys]. *)
Definition xl_forward (key : key) (b0 : 'I_n) (bs : seq 'I_n) (y0 : pop) (ys : seq pop)
  (s0 : setting) (params : seq (setting * Q)) : prog (option (xfwd_out X n')) :=
  let lw0 := xminus_max (xl_Gamma_0_tilde s0 y0) in
  odo (_, outs) <- oscan xl_body (xnormalize lw0, y0) (sinputs params ys b0 bs key 3);
  Ret (Some (lw0, y0, outs)).

(** l_csmc_f.py:126-170.  The backward pass draws with [Gamma_t] itself. *)
Definition xl_sweep (key : key) (b0 : 'I_n) (bs : seq 'I_n) (y0 : pop) (ys : seq pop)
  (s0 : setting) (ss : seq setting) (qs : seq Q)
  (backward : bool) : prog (option (seq X * seq 'I_n * seq lwts)) :=
  odo o <- xl_forward key b0 bs y0 ys s0 (zip ss qs);
  odo (xs, Bs) <- (if backward
                   then xbackward_sampling_pass ancestor_move_func Gamma_t (split key 2) qs (last b0 bs) o true
                   else xbackward_scanning_pass ancestor_move_func (split key 2) (last b0 bs) o);
  Ret (Some (xs, Bs, unzip1 (xgens o))).

(** l_csmc_f.py:14-170; the auxiliary variables (l_csmc_f.py:105-110) are those of
    al_csmc_f.py.  When a gradient at the reference is undefined the run has no result:
    all weights of that time are NaN. *)
Definition xl_kernel (key : key) (x0 : X) (xs : seq X) (b0 : 'I_n) (bs : seq 'I_n)
  (s0 : setting) (ss : seq setting) (qs : seq Q) (backward : bool)
  : prog (option (seq X * seq 'I_n * seq lwts)) :=
  do (e0, es) <- normals (split key 1) (noise s0) [seq noise s | s <- ss];
  if xal_aux scale Gamma_0_grad Gamma_t_grad x0 xs s0 ss qs e0 es is Some (u0, us) then
    do (p0, ps) <- normals (split key 0) (iid (noise s0)) [seq iid (noise s) | s <- ss];
    xl_sweep key b0 bs (mk_pop u0 p0 b0 x0) (mk_pops us ps bs xs) s0 ss qs backward
  else Ret None.

(** utils/mcmc_utils.py:82: the kernel applied with one key after the other to what it
    returned before. *)
Fixpoint xl_runs (s0 : setting) (ss : seq setting) (qs : seq Q) (backward : bool) (keys : seq key)
  (s : seq X * seq 'I_n) : prog (option (seq X * seq 'I_n)) :=
  match keys, s with
  | [::], _ => Ret (Some s)
  | k :: ks, (x0 :: xs, b0 :: bs) =>
      odo r <- xl_kernel k x0 xs b0 bs s0 ss qs backward;
      xl_runs s0 ss qs backward ks r.1
  | _, _ => Ret None
  end.

End L.
