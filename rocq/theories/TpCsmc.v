(** * TpCsmc: model of the kernels of /repo/gradient_csmc/atp_csmc_f.py and
    tp_csmc.py, which call the kernel of csmc.py with proposals that depend on auxiliary
    variables drawn around the reference. *)
From Coq Require Import Reals.
From mathcomp Require Import all_ssreflect all_algebra.
From Verif Require Import RInst Prog Resampling Csmc AuxCsmc.

Set Implicit Arguments.
Unset Strict Implicit.
Unset Printing Implicit Defensive.
Import GRing.Theory Num.Theory Order.TTheory.
Local Open Scope ring_scope.

(** ** The functions of states of any abelian group *)
Section Functions.
(** [Q]: all parameters of one time step (step sizes, gains, factors, parameters of [mut] and [rt]). *)
Variables (X : zmodType) (n' : nat) (Q : Type).
Local Notation n := n'.+1.
Local Notation pop := (pop X n').
Local Notation lwts := (lwts n').

(** The variables are described below, in Section Tp. *)
Variables (ld0 : X -> R) (ld : Q -> X -> R).
Variables (scale0 : X -> X) (scale : Q -> X -> X).
Variables (pld0 : X -> R) (pld : Q -> X -> R).
Variables (mean0 : X -> X) (mean : Q -> X -> X -> X).
Variables (prior0 : X -> R) (prior : X -> X -> Q -> R).
Variables (r0 : X -> R) (rt : X -> X -> Q -> R) (g0 : X -> X) (gt : X -> X -> Q -> X).
Variables (logH0 : pop -> X -> 'I_n -> R) (logH : Q -> pop -> pop -> X -> 'I_n -> R).

(** [aux_vars[1:]] (atp_csmc_f.py:107-112, tp_csmc.py:111-116). *)
Fixpoint tp_aux (xm : X) (xs : seq X) (qs : seq Q) (es : seq X) : seq X :=
  match xs, qs, es with
  | x :: xs', q :: qs', e :: es' => (x + scale q (gt xm x q) + e) :: tp_aux x xs' qs' es'
  | _, _, _ => [::]
  end.

(** atp_csmc_f.py:176-180, 192-196. *)
Definition atp_M0_logpdf (u : X) (x : pop) : lwts := fun i => pld0 (x i - mean0 u).
Definition atp_Mt_logpdf (xm x : pop) (p : X * Q) : lwts := fun i => pld p.2 (x i - mean p.2 (xm i) p.1).

(** atp_csmc_f.py:199-217. *)
Definition atp_Gamma_0 (u x : X) : R := prior0 x + r0 x + ld0 (u - x - scale0 (g0 x)).
Definition atp_Gamma_t (xm x : X) (p : X * Q) : R :=
  prior xm x p.2 + rt xm x p.2 + ld p.2 (p.1 - x - scale p.2 (gt xm x p.2)).

(** tp_csmc.py:133-139, 149-159: minus the correction. *)
Definition tp_M0_logpdf (x : pop) : lwts := fun i => - logH0 x (scale0 (g0 (x i))) i.
Definition tp_Mt_logpdf (xm x : pop) (p : X * Q) : lwts :=
  fun i => - logH p.2 xm x (scale p.2 (gt (xm i) (x i) p.2)) i.

(** tp_csmc.py:161-175. *)
Definition tp_Gamma_0 (x : X) : R := prior0 x + r0 x.
Definition tp_Gamma_t (xm x : X) (q : Q) : R := prior xm x q + rt xm x q.

End Functions.

(** ** The kernels *)
Section Tp.
(** States form a finite abelian group standing for R^d.  [Q]: all parameters of one
    time step (step sizes, gains, factors, parameters of [mut] and [rt]). *)
Variables (X : finZmodType) (n' : nat) (Q : Type).
Local Notation n := n'.+1.
Local Notation pop := (pop X n').
Local Notation lwts := (lwts n').

(** Time 0 and time t >= 1:
    [noise0], [noise q]: law of [aux_std_devs[t] * normal(d)];
    [ld0], [ld q]: [z -> - sum(z ** 2) / ell_t];
    [scale0], [scale q]: [g -> 0.5 * delta_t * g];
    [pnoise0], [pnoise q]: law of [eps @ chol.T], one row (p_chol of Proposal.v);
    [pld0], [pld q]: log-density of it as evaluated by the code (prop_logpdf);
    [mean0 u]: [mu0 + K (u - mu0)]; [mean q m u]: the same from [mut(x_prev)]
    (prop_mean of Proposal.v);
    [prior0], [prior]: [mvn_logpdf] of the initial and transition densities;
    [r0], [rt] and their gradients [g0], [gt];
    [logH0], [logH]: [get_log_H_bis], a function of the generation, of its
    ancestors, of the gradient shift and of the particle. *)
Variables (noise0 ld0 : X -> R) (noise ld : Q -> X -> R).
Variables (scale0 : X -> X) (scale : Q -> X -> X).
Variables (pnoise0 pld0 : X -> R) (pnoise pld : Q -> X -> R).
Variables (mean0 : X -> X) (mean : Q -> X -> X -> X).
Variables (prior0 : X -> R) (prior : X -> X -> Q -> R).
Variables (r0 : X -> R) (rt : X -> X -> Q -> R) (g0 : X -> X) (gt : X -> X -> Q -> X).
Variables (logH0 : pop -> X -> 'I_n -> R) (logH : Q -> pop -> pop -> X -> 'I_n -> R).

Variable resampling_func : resampler n.
Variable ancestor_move_func : mover n.

Local Notation tp_aux := (tp_aux scale gt).
Local Notation atp_M0_logpdf := (atp_M0_logpdf pld0 mean0).
Local Notation atp_Mt_logpdf := (atp_Mt_logpdf pld mean).
Local Notation atp_Gamma_0 := (atp_Gamma_0 ld0 scale0 prior0 r0 g0).
Local Notation atp_Gamma_t := (atp_Gamma_t ld scale prior rt gt).
Local Notation tp_M0_logpdf := (tp_M0_logpdf scale0 g0 logH0).
Local Notation tp_Mt_logpdf := (tp_Mt_logpdf scale gt logH).
Local Notation tp_Gamma_0 := (tp_Gamma_0 prior0 r0).
Local Notation tp_Gamma_t := (tp_Gamma_t prior rt).

(** atp_csmc_f.py:165-173 and tp_csmc.py:127-131, [M0_rvs]. *)
Definition atp_M0_rvs (u : X) (key : key) : prog pop :=
  do e <- draw key (iid pnoise0); Ret [ffun i => mean0 u + e i].

(** atp_csmc_f.py:183-189 and tp_csmc.py:141-147, [Mt_rvs]. *)
Definition atp_Mt_rvs (key : key) (xm : pop) (p : X * Q) : prog pop :=
  do e <- draw key (iid (pnoise p.2)); Ret [ffun i => mean p.2 (xm i) p.1 + e i].

(** The callbacks passed to csmc.kernel, atp_csmc_f.py:114-130. *)
Definition atp_model (u0 : X) : model X n' (X * Q) (X * Q) :=
  Model (atp_M0_rvs u0) (atp_M0_logpdf u0) (atp_Gamma_0 u0) atp_Mt_rvs atp_Mt_logpdf atp_Gamma_t.

(** atp_csmc_f.py:72-136; [key_csmc, _, key_aux = split(key, 3)]. *)
Definition atp_kernel (key : key) (x0 : X) (xs : seq X) (b0 : 'I_n) (bs : seq 'I_n) (qs : seq Q)
  (backward : bool) : prog (seq X * seq 'I_n * seq lwts) :=
  let key_csmc := split key 0 in let key_aux := split key 2 in
  do (e0, es) <- normals key_aux noise0 [seq noise q | q <- qs];
  let u0 := x0 + scale0 (g0 x0) + e0 in
  let us := tp_aux x0 xs qs es in
  kernel resampling_func ancestor_move_func (atp_model u0) key_csmc x0 xs b0 bs
    (zip us qs) (zip us qs) backward true.

Definition tp_model (u0 : X) : model X n' (X * Q) Q :=
  Model (atp_M0_rvs u0) tp_M0_logpdf tp_Gamma_0 atp_Mt_rvs tp_Mt_logpdf tp_Gamma_t.

(** tp_csmc.py:73-187; [key_csmc, key_aux = split(key)]. *)
Definition tp_kernel (key : key) (x0 : X) (xs : seq X) (b0 : 'I_n) (bs : seq 'I_n) (qs : seq Q)
  (backward : bool) : prog (seq X * seq 'I_n * seq lwts) :=
  let key_csmc := split key 0 in let key_aux := split key 1 in
  do (e0, es) <- normals key_aux noise0 [seq noise q | q <- qs];
  let u0 := x0 + scale0 (g0 x0) + e0 in
  let us := tp_aux x0 xs qs es in
  kernel resampling_func ancestor_move_func (tp_model u0) key_csmc x0 xs b0 bs
    (zip us qs) qs backward true.
End Tp.
