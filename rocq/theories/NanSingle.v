(** * NanSingle: model of /repo/gradient_csmc/mala.py and tp.py when the target may vanish.

    As [mala_run] and [tp1_run] of Single.v, with the numbers of NanCsmc.v.  Gradients are
    vectors of numbers, or undefined ([None]) when one of their entries is not a number;
    where a gradient is undefined so are the numbers computed from it. *)
From Coq Require Import Reals.
From mathcomp Require Import all_ssreflect all_algebra.
From Verif Require Import RInst Prog Resampling Single NanCsmc NanImh.

Set Implicit Arguments.
Unset Strict Implicit.
Unset Printing Implicit Defensive.
Import GRing.Theory Num.Theory Order.TTheory.
Local Open Scope ring_scope.

Section Run.
Variables (X : zmodType) (N : nat).
(** [val_and_grad_log_pdf] (mala.py:45, tp.py:50). *)
Variables (log_pdf : X -> xnum) (grad : X -> option X).
(** As in Single.v. *)
Variables (aux_noise : key -> prog X) (prop_noise : key -> prog {ffun 'I_N -> X}).
Variables (ld : X -> R) (scale : X -> X).
Variable log_H : {ffun 'I_N.+1 -> X} -> X -> X -> R.
Variable mv : mover N.+1.

(** mala.py:66-79. *)
Definition xmala_log_weights (auxiliary : bool) (us : X) (samples : {ffun 'I_N.+1 -> X})
  (grads : 'I_N.+1 -> option X) (vals : 'I_N.+1 -> xnum) : 'I_N.+1 -> xnum :=
  if auxiliary then fun i =>
    let correction_term := if grads i is Some g then Fin (ld (us - samples i - scale g)) else NaN in
    let log_weight := xadd (vals i) correction_term in
    let proposal_log_pdf := Fin (ld (us - samples i)) in
    xsub log_weight proposal_log_pdf
  else fun i => xadd (vals i) (if grads i is Some g then Fin (log_H samples (samples i) (scale g)) else NaN).

(** mala.py:16-89.  From an undefined gradient there is no result: [us] is undefined. *)
Definition xmala_run (key : key) (auxiliary : bool) (state : X * xnum * option X)
  : prog (option ((X * xnum * option X) * bool)) :=
  let x_star := state.1.1 in let val_x_star := state.1.2 in
  let key_sample := split key 0 in let key_choice := split key 1 in let key_aux := split key 2 in
  if state.2 is Some grad_x_star then
    do eps_aux <- aux_noise key_aux;
    let us := x_star + scale grad_x_star + eps_aux in
    do eps <- prop_noise key_sample;
    let samples0 := fun j => us + eps j in
    let samples := [ffun i => insert0 x_star samples0 i] in
    let vals := insert0 val_x_star (fun j => log_pdf (samples0 j)) in
    let grads := insert0 (Some grad_x_star) (fun j => grad (samples0 j)) in
    xselect mv key_choice (xmala_log_weights auxiliary us samples grads vals) (fun i => (samples i, vals i, grads i))
  else Ret None.

(** tp.py:83-86, 93-94, as in Single.v. *)
Variable corr : X -> X -> X -> R.
Variable post_sampling : key -> X -> prog {ffun 'I_N -> X}.

(** tp.py:52-105.  From an undefined gradient there is no result: [us] is undefined. *)
Definition xtp1_run (key : key) (state : X * xnum * option X)
  : prog (option ((X * xnum * option X) * bool)) :=
  let x_star := state.1.1 in let val_x_star := state.1.2 in
  let key_sample := split key 0 in let key_choice := split key 1 in let key_aux := split key 2 in
  if state.2 is Some grad_x_star then
    do eps_aux <- aux_noise key_aux;
    let us := x_star + scale grad_x_star + eps_aux in
    do samples0 <- post_sampling key_sample us;
    let samples := [ffun i => insert0 x_star samples0 i] in
    let vals := insert0 val_x_star (fun j => log_pdf (samples0 j)) in
    let grads := insert0 (Some grad_x_star) (fun j => grad (samples0 j)) in
    let log_weights := fun i =>
      xadd (vals i) (if grads i is Some g then Fin (corr us (samples i) g) else NaN) in
    xselect mv key_choice log_weights (fun i => (samples i, vals i, grads i))
  else Ret None.

(** tp.py:110-127, [init]; mala.py imports it. *)
Definition xtp1_init (x : X) : X * xnum * option X := (x, log_pdf x, grad x).
End Run.

(** The kernels on a finite group, with noises drawn from the mass function [noise]. *)
Section Finite.
Variables (X : finZmodType) (N : nat) (log_pdf : X -> xnum) (grad : X -> option X).
Variables (noise ld : X -> R) (scale : X -> X).
Variable log_H : {ffun 'I_N.+1 -> X} -> X -> X -> R.
Variable mv : mover N.+1.

(** mala.py:16-89. *)
Definition xmala_kernel : key -> bool -> X * xnum * option X -> prog (option ((X * xnum * option X) * bool)) :=
  xmala_run log_pdf grad (fun k => draw k noise) (fun k => draw k (noises (N := N) noise)) ld scale log_H mv.

(** tp.py:52-105. *)
Definition xtp1_kernel (corr : X -> X -> X -> R) (post_sampling : key -> X -> prog {ffun 'I_N -> X})
  : key -> X * xnum * option X -> prog (option ((X * xnum * option X) * bool)) :=
  xtp1_run log_pdf grad (fun k => draw k noise) scale mv corr post_sampling.
End Finite.

(** utils/mcmc_utils.py:82: one call of a kernel after the other; adaptation may change
    the kernel between calls. *)
Fixpoint xsteps (S : Type) (Ks : seq (S -> prog (option (S * bool)))) (state : S) : prog (option S) :=
  if Ks is K :: Ks' then odo r <- K state; xsteps Ks' r.1 else Ret (Some state).
