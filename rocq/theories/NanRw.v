(** * NanRw: model of /repo/gradient_csmc/rw_csmc.py when the potentials may vanish.

    As NanCsmc.v: log-potentials may be [-inf], arithmetic is that of IEEE numbers
    without rounding, and a run that needs weights that are not finite has no result. *)
From Coq Require Import Reals.
From mathcomp Require Import all_ssreflect all_algebra.
From Verif Require Import RInst Prog Resampling Csmc AuxCsmc NanCsmc.

Set Implicit Arguments.
Unset Strict Implicit.
Unset Printing Implicit Defensive.
Import GRing.Theory Num.Theory Order.TTheory.
Local Open Scope ring_scope.

Section Rw.
(** States and noise laws as in AuxCsmc.v. *)
Variables (X : finZmodType) (n' : nat) (Q setting : Type).
Local Notation n := n'.+1.
Local Notation pop := (pop X n').
Local Notation anc := (anc n').
Local Notation lwts := (xlwts n').
Variable noise : setting -> X -> R.
Variable resampling_func : resampler n.
Variable ancestor_move_func : mover n.
Variables (Gamma_0 : X -> xnum) (Gamma_t : X -> X -> Q -> xnum).

(** rw_csmc.py:83. *)
Definition xminus_max (lw : lwts) : lwts := fun i => xsub (lw i) (xamax lw).

(** rw_csmc.py:90-105. *)
Definition xrw_body (carry : ('I_n -> xnum) * pop) (i : sinp X n' Q)
  : prog (option ((('I_n -> xnum) * pop) * (lwts * anc * pop))) :=
  let: (w_t_m_1, x_t_m_1) := carry in
  odo A_t <- on_weights w_t_m_1 (fun w => resampling_func (s_key i) w (s_bm1 i) (s_b i) true);
  let x_t_m_1 := take_ax x_t_m_1 A_t in
  let log_w_t := xnormalize_log (fun l => Gamma_t (x_t_m_1 l) (s_x i l) (s_p i)) in
  Ret (Some ((fun l => xexp (log_w_t l), s_x i), (log_w_t, A_t, s_x i))).

(** rw_csmc.py:82-114, on the particles [y0], [ys]. *)
Definition xrw_forward (key : key) (b0 : 'I_n) (bs : seq 'I_n) (y0 : pop) (ys : seq pop) (qs : seq Q)
  : prog (option (xfwd_out X n')) :=
  let lw0 := xminus_max (fun i => Gamma_0 (y0 i)) in
  odo (_, outs) <- oscan xrw_body (xnormalize lw0, y0) (sinputs qs ys b0 bs key 3);
  Ret (Some (lw0, y0, outs)).

(** rw_csmc.py:82-123. *)
Definition xrw_sweep (key : key) (b0 : 'I_n) (bs : seq 'I_n) (y0 : pop) (ys : seq pop) (qs : seq Q)
  (backward : bool) : prog (option (seq X * seq 'I_n * seq lwts)) :=
  odo o <- xrw_forward key b0 bs y0 ys qs;
  odo (xs, Bs) <- (if backward
                   then xbackward_sampling_pass ancestor_move_func Gamma_t (split key 2) qs (last b0 bs) o true
                   else xbackward_scanning_pass ancestor_move_func (split key 2) (last b0 bs) o);
  Ret (Some (xs, Bs, unzip1 (xgens o))).

(** rw_csmc.py:14-128. *)
Definition xrw_kernel (finite : X -> bool) (key : key) (x0 : X) (xs : seq X) (b0 : 'I_n) (bs : seq 'I_n)
  (s0 : setting) (ss : seq setting) (qs : seq Q) (backward : bool)
  : prog (option (seq X * seq 'I_n * seq lwts)) :=
  do (e0, es) <- normals (split key 1) (noise s0) [seq noise s | s <- ss];
  let u0 := x0 + e0 in
  let us := rw_aux xs es in
  do (p0, ps) <- normals (split key 0) (iid (noise s0)) [seq iid (noise s) | s <- ss];
  odo r <- xrw_sweep key b0 bs (mk_pop u0 p0 b0 x0) (mk_pops us ps bs xs) qs backward;
  Ret (Some (rw_guard finite (x0 :: xs) (b0 :: bs) r)).

(** utils/mcmc_utils.py:82: the kernel applied with one key after the other to what it
    returned before. *)
Fixpoint xrw_runs (s0 : setting) (ss : seq setting) (qs : seq Q) (backward : bool) (keys : seq key)
  (s : seq X * seq 'I_n) : prog (option (seq X * seq 'I_n)) :=
  match keys, s with
  | [::], _ => Ret (Some s)
  | k :: ks, (x0 :: xs, b0 :: bs) =>
      odo r <- xrw_kernel xpredT k x0 xs b0 bs s0 ss qs backward;
      xrw_runs s0 ss qs backward ks r.1
  | _, _ => Ret None
  end.

End Rw.
