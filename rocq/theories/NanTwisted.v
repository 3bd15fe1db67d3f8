(** * NanTwisted: model of the kernel of /repo/gradient_csmc/t_atp_csmc_f.py when the potentials
    may vanish.

    As Twisted.v, Section Kernel, with log-potentials that may be [-inf]; it calls the kernel of
    NanCsmc.v.  A gradient is [None] when it has an entry that is not a finite number, as in
    NanAl.v. *)
From Coq Require Import Reals.
From mathcomp Require Import all_ssreflect all_algebra.
From Verif Require Import RInst Prog Resampling Csmc AuxCsmc TpCsmc Twisted NanCsmc NanAl NanAtp.

Set Implicit Arguments.
Unset Strict Implicit.
Unset Printing Implicit Defensive.
Import GRing.Theory Num.Theory Order.TTheory.
Local Open Scope ring_scope.

Section Kernel.
(** States, laws, densities and the proposals computed from the auxiliary variables
    ([tparams]) as in Twisted.v, Section Kernel; [tparams] is only called with auxiliary
    variables that are finite. *)
Variables (X : finZmodType) (n' : nat) (Q W : Type).
Local Notation n := n'.+1.
Local Notation pop := (pop X n').
Local Notation lwts := (xlwts n').
Variables (noise0 ld0 : X -> R) (noise ld : Q -> X -> R).
Variables (scale0 : X -> X) (scale : Q -> X -> X).
Variable tparams : X -> seq X -> W * seq W.
Variables (law0 lpdf0 : W -> X -> R) (law lpdf : W -> X -> X -> R).
Variables (r0 : X -> xnum) (rt : X -> X -> Q -> xnum).
Variables (g0 : X -> option X) (gt : X -> X -> Q -> option X).
Variable resampling_func : resampler n.
Variable ancestor_move_func : mover n.

(** t_atp_csmc_f.py:204-212. *)
Definition xtw_Gamma_0 (w : W) (u x : X) : xnum :=
  xadd (r0 x) (if g0 x is Some g then Fin (ld0 (u - x - scale0 g) - ld0 (u - x) + lpdf0 w x) else NaN).

(** t_atp_csmc_f.py:215-225. *)
Definition xtw_Gamma_t (xm x : X) (p : X * Q * W) : xnum :=
  let: (u, q, w) := p in
  xadd (rt xm x q) (if gt xm x q is Some g then Fin (ld q (u - x - scale q g) - ld q (u - x) + lpdf w xm x) else NaN).

(** The callbacks passed to csmc.kernel, t_atp_csmc_f.py:128-140; the samplers and log-densities
    of the proposals (t_atp_csmc_f.py:178-201) are those of Twisted.v. *)
Definition xtw_model (w0 : W) (u0 : X) : xmodel X n' W (X * Q * W) :=
  XModel (tw_M0_rvs n' law0 w0) (fun x i => Fin (tw_M0_logpdf lpdf0 w0 x i)) (xtw_Gamma_0 w0 u0)
         (tw_Mt_rvs law) (fun xm x w i => Fin (tw_Mt_logpdf lpdf xm x w i)) xtw_Gamma_t.

(** t_atp_csmc_f.py:96-146; [key_csmc, _, key_aux = split(key, 3)]; the auxiliary variables
    (t_atp_csmc_f.py:99-104) are those of atp_csmc_f.py.  When a gradient at the reference is
    undefined the run has no result: an auxiliary variable is NaN, then so are the means of the
    filter from its time down to time 0, and the particles of time 0. *)
Definition xtw_kernel (key : key) (x0 : X) (xs : seq X) (b0 : 'I_n) (bs : seq 'I_n) (qs : seq Q)
  (backward : bool) : prog (option (seq X * seq 'I_n * seq lwts)) :=
  let key_csmc := split key 0 in let key_aux := split key 2 in
  do (e0, es) <- normals key_aux noise0 [seq noise q | q <- qs];
  if xatp_aux scale0 scale g0 gt x0 xs qs e0 es is Some (u0, us) then
    let: (w0, ws) := tparams u0 us in
    xkernel resampling_func ancestor_move_func (xtw_model w0 u0) key_csmc x0 xs b0 bs
      ws (zip (zip us qs) ws) backward true
  else Ret None.

(** utils/mcmc_utils.py:82: the kernel applied with one key after the other to what it
    returned before. *)
Fixpoint xtw_runs (qs : seq Q) (backward : bool) (keys : seq key)
  (s : seq X * seq 'I_n) : prog (option (seq X * seq 'I_n)) :=
  match keys, s with
  | [::], _ => Ret (Some s)
  | k :: ks, (x0 :: xs, b0 :: bs) =>
      odo r <- xtw_kernel k x0 xs b0 bs qs backward;
      xtw_runs qs backward ks r.1
  | _, _ => Ret None
  end.

End Kernel.
