(** * NanAtp: model of the kernels of /repo/gradient_csmc/atp_csmc_f.py and tp_csmc.py when the potentials
    may vanish.

    As TpCsmc.v, with log-potentials that may be [-inf]; it calls the kernel of NanCsmc.v.
    A gradient is [None] when it has an entry that is not a finite number, as in NanAl.v. *)
From Coq Require Import Reals.
From mathcomp Require Import all_ssreflect all_algebra.
From Verif Require Import RInst Prog Resampling Csmc AuxCsmc TpCsmc NanCsmc NanAl.

Set Implicit Arguments.
Unset Strict Implicit.
Unset Printing Implicit Defensive.
Import GRing.Theory Num.Theory Order.TTheory.
Local Open Scope ring_scope.

Section Atp.
(** States, laws, means, factors and densities as in TpCsmc.v, Section Tp; the Gaussian
    densities of the initial state and of the transitions are real numbers. *)
Variables (X : finZmodType) (n' : nat) (Q : Type).
Local Notation n := n'.+1.
Local Notation pop := (pop X n').
Local Notation lwts := (xlwts n').
Variables (noise0 ld0 : X -> R) (noise ld : Q -> X -> R).
Variables (scale0 : X -> X) (scale : Q -> X -> X).
Variables (pnoise0 pld0 : X -> R) (pnoise pld : Q -> X -> R).
Variables (mean0 : X -> X) (mean : Q -> X -> X -> X).
Variables (prior0 : X -> R) (prior : X -> X -> Q -> R).
(** Values and gradients of atp_csmc_f.py:69-70. *)
Variables (r0 : X -> xnum) (rt : X -> X -> Q -> xnum).
Variables (g0 : X -> option X) (gt : X -> X -> Q -> option X).
Variable resampling_func : resampler n.
Variable ancestor_move_func : mover n.

(** atp_csmc_f.py:199-206. *)
Definition xatp_Gamma_0 (u x : X) : xnum :=
  xadd (xadd (Fin (prior0 x)) (r0 x)) (if g0 x is Some g then Fin (ld0 (u - x - scale0 g)) else NaN).

(** atp_csmc_f.py:209-217. *)
Definition xatp_Gamma_t (xm x : X) (p : X * Q) : xnum :=
  xadd (xadd (Fin (prior xm x p.2)) (rt xm x p.2))
       (if gt xm x p.2 is Some g then Fin (ld p.2 (p.1 - x - scale p.2 g)) else NaN).

(** The callbacks passed to csmc.kernel, atp_csmc_f.py:118-130; the samplers and
    log-densities of the proposals (atp_csmc_f.py:165-196) are those of TpCsmc.v. *)
Definition xatp_model (u0 : X) : xmodel X n' (X * Q) (X * Q) :=
  XModel (atp_M0_rvs n' pnoise0 mean0 u0) (fun x i => Fin (atp_M0_logpdf pld0 mean0 u0 x i)) (xatp_Gamma_0 u0)
         (atp_Mt_rvs pnoise mean) (fun xm x p i => Fin (atp_Mt_logpdf pld mean xm x p i)) xatp_Gamma_t.

(** [aux_vars] (atp_csmc_f.py:107-112): [None] if a gradient at the reference is undefined. *)
Definition xatp_aux (x0 : X) (xs : seq X) (qs : seq Q) (e0 : X) (es : seq X) : option (X * seq X) :=
  match g0 x0, xgrad_aux scale gt x0 xs qs qs es with
  | Some g, Some us => Some (x0 + scale0 g + e0, us)
  | _, _ => None
  end.

(** atp_csmc_f.py:72-136; [key_csmc, _, key_aux = split(key, 3)].  When a gradient at the
    reference is undefined the run has no result: all weights of that time are NaN. *)
Definition xatp_kernel (key : key) (x0 : X) (xs : seq X) (b0 : 'I_n) (bs : seq 'I_n) (qs : seq Q)
  (backward : bool) : prog (option (seq X * seq 'I_n * seq lwts)) :=
  let key_csmc := split key 0 in let key_aux := split key 2 in
  do (e0, es) <- normals key_aux noise0 [seq noise q | q <- qs];
  if xatp_aux x0 xs qs e0 es is Some (u0, us) then
    xkernel resampling_func ancestor_move_func (xatp_model u0) key_csmc x0 xs b0 bs
      (zip us qs) (zip us qs) backward true
  else Ret None.

(** utils/mcmc_utils.py:82: the kernel applied with one key after the other to what it
    returned before. *)
Fixpoint xatp_runs (qs : seq Q) (backward : bool) (keys : seq key)
  (s : seq X * seq 'I_n) : prog (option (seq X * seq 'I_n)) :=
  match keys, s with
  | [::], _ => Ret (Some s)
  | k :: ks, (x0 :: xs, b0 :: bs) =>
      odo r <- xatp_kernel k x0 xs b0 bs qs backward;
      xatp_runs qs backward ks r.1
  | _, _ => Ret None
  end.

End Atp.

(** ** tp_csmc.py *)
Section Tp.
(** As above; [logH0], [logH]: [get_log_H_bis], as in TpCsmc.v. *)
Variables (X : finZmodType) (n' : nat) (Q : Type).
Local Notation n := n'.+1.
Local Notation pop := (pop X n').
Local Notation lwts := (xlwts n').
Variables (noise0 : X -> R) (noise : Q -> X -> R).
Variables (scale0 : X -> X) (scale : Q -> X -> X).
Variables (pnoise0 : X -> R) (pnoise : Q -> X -> R).
Variables (mean0 : X -> X) (mean : Q -> X -> X -> X).
Variables (prior0 : X -> R) (prior : X -> X -> Q -> R).
(** Values and gradients of tp_csmc.py:70-71. *)
Variables (r0 : X -> xnum) (rt : X -> X -> Q -> xnum).
Variables (g0 : X -> option X) (gt : X -> X -> Q -> option X).
Variables (logH0 : pop -> X -> 'I_n -> R) (logH : Q -> pop -> pop -> X -> 'I_n -> R).
Variable resampling_func : resampler n.
Variable ancestor_move_func : mover n.

(** tp_csmc.py:133-139, 149-159: minus the correction, NaN where the gradient is undefined. *)
Definition xtp_M0_logpdf (x : pop) : lwts :=
  fun i => if g0 (x i) is Some g then Fin (- logH0 x (scale0 g) i) else NaN.
Definition xtp_Mt_logpdf (xm x : pop) (p : X * Q) : lwts :=
  fun i => if gt (xm i) (x i) p.2 is Some g then Fin (- logH p.2 xm x (scale p.2 g) i) else NaN.

(** tp_csmc.py:161-174. *)
Definition xtp_Gamma_0 (x : X) : xnum := xadd (Fin (prior0 x)) (r0 x).
Definition xtp_Gamma_t (xm x : X) (q : Q) : xnum := xadd (Fin (prior xm x q)) (rt xm x q).

(** The callbacks passed to csmc.kernel, tp_csmc.py:177-187; the samplers (tp_csmc.py:127-131,
    141-147) are those of TpCsmc.v. *)
Definition xtp_model (u0 : X) : xmodel X n' (X * Q) Q :=
  XModel (atp_M0_rvs n' pnoise0 mean0 u0) xtp_M0_logpdf xtp_Gamma_0 (atp_Mt_rvs pnoise mean) xtp_Mt_logpdf xtp_Gamma_t.

(** tp_csmc.py:73-187; [key_csmc, key_aux = split(key)]; [aux_vars] (tp_csmc.py:111-116) as in [xatp_aux]. *)
Definition xtp_kernel (key : key) (x0 : X) (xs : seq X) (b0 : 'I_n) (bs : seq 'I_n) (qs : seq Q)
  (backward : bool) : prog (option (seq X * seq 'I_n * seq lwts)) :=
  let key_csmc := split key 0 in let key_aux := split key 1 in
  do (e0, es) <- normals key_aux noise0 [seq noise q | q <- qs];
  if xatp_aux scale0 scale g0 gt x0 xs qs e0 es is Some (u0, us) then
    xkernel resampling_func ancestor_move_func (xtp_model u0) key_csmc x0 xs b0 bs
      (zip us qs) qs backward true
  else Ret None.

(** utils/mcmc_utils.py:82. *)
Fixpoint xtp_runs (qs : seq Q) (backward : bool) (keys : seq key)
  (s : seq X * seq 'I_n) : prog (option (seq X * seq 'I_n)) :=
  match keys, s with
  | [::], _ => Ret (Some s)
  | k :: ks, (x0 :: xs, b0 :: bs) =>
      odo r <- xtp_kernel k x0 xs b0 bs qs backward;
      xtp_runs qs backward ks r.1
  | _, _ => Ret None
  end.

End Tp.
