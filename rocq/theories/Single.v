(** * Single: model of the single-trajectory kernels of /repo/gradient_csmc/mala.py,
    tp.py and imh.py.

    [X] is the space of whole trajectories ([T * d] arrays): an abelian group for
    mala and tp, a type for imh. *)
From Coq Require Import Reals.
From mathcomp Require Import all_ssreflect all_algebra.
From Verif Require Import RInst Prog Resampling Gauss.

Set Implicit Arguments.
Unset Strict Implicit.
Unset Printing Implicit Defensive.
Import GRing.Theory Num.Theory Order.TTheory.
Local Open Scope ring_scope.

(** [jnp.insert(a, 0, v, axis=0)]: mala.py:62-64, tp.py:89-91, imh.py:75-76. *)
Definition insert0 (Y : Type) (N : nat) (v : Y) (a : 'I_N -> Y) : 'I_N.+1 -> Y :=
  fun i => if unlift ord0 i is Some j then a j else v.

(** [exp(lw - max(lw))], then division by the sum: mala.py:81-82, tp.py:97-98, imh.py:78-79. *)
Definition self_normalise (n' : nat) (lw : 'I_n'.+1 -> R) : 'I_n'.+1 -> R :=
  let w := fun i => exp (lw i - amax lw) in
  fun i => w i / \sum_j w j.

(** The last lines of the three kernels (mala.py:84-89, tp.py:100-105, imh.py:81-85):
    selection from index 0 and extraction of the selected entries; [payload i] are
    the cached quantities.  [mv] is [force_move] in the code. *)
Definition select (Y : Type) (n' : nat) (mv : mover n'.+1) (key_choice : key) (lw : 'I_n'.+1 -> R)
  (payload : 'I_n'.+1 -> Y) : prog (Y * bool) :=
  do r <- mv key_choice (self_normalise lw) ord0;
  Ret (payload r.1, r.1 != ord0).

Section Mala.
Variables (X : zmodType) (N : nat).
(** [val_and_grad_log_pdf]; the gradient is an arbitrary function. *)
Variables (log_pdf : X -> R) (grad : X -> X).
(** [aux_noise key], [prop_noise key]: [std_dev * normal(key)] of shapes (T, d) and (N, T, d);
    [ld z]: [-0.5 sum(z ** 2) / std_dev ** 2]; [scale g]: [0.5 * delta * g];
    [log_H samples x phi]: [get_log_H(samples, 2/delta, 0.5*delta)(x, phi)] (mala_log_H of Gauss.v). *)
Variables (aux_noise : key -> prog X) (prop_noise : key -> prog {ffun 'I_N -> X}).
Variables (ld : X -> R) (scale : X -> X).
Variable log_H : {ffun 'I_N.+1 -> X} -> X -> X -> R.
Variable mv : mover N.+1.

(** mala.py:66-79. *)
Definition mala_log_weights (auxiliary : bool) (us : X) (samples grads : {ffun 'I_N.+1 -> X})
  (vals : 'I_N.+1 -> R) : 'I_N.+1 -> R :=
  if auxiliary then fun i =>
    let correction_term := ld (us - samples i - scale (grads i)) in
    let log_weight := vals i + correction_term in
    let proposal_log_pdf := ld (us - samples i) in
    log_weight - proposal_log_pdf
  else fun i => vals i + log_H samples (samples i) (scale (grads i)).

(** mala.py:16-89; [key_sample, key_choice, key_aux = split(key, 3)].  The result is
    the new state and the acceptance flag. *)
Definition mala_run (key : key) (auxiliary : bool) (state : X * R * X) : prog ((X * R * X) * bool) :=
  let x_star := state.1.1 in let val_x_star := state.1.2 in let grad_x_star := state.2 in
  let key_sample := split key 0 in let key_choice := split key 1 in let key_aux := split key 2 in
  do eps_aux <- aux_noise key_aux;
  let us := x_star + scale grad_x_star + eps_aux in
  do eps <- prop_noise key_sample;
  let samples0 := fun j => us + eps j in
  let vals0 := fun j => log_pdf (samples0 j) in
  let grads0 := fun j => grad (samples0 j) in
  let samples := [ffun i => insert0 x_star samples0 i] in
  let vals := insert0 val_x_star vals0 in
  let grads := [ffun i => insert0 grad_x_star grads0 i] in
  let log_weights := mala_log_weights auxiliary us samples grads vals in
  select mv key_choice log_weights (fun i => (samples i, vals i, grads i)).

(** tp.py:93-94: [sum((us - samples - 0.25 * delta * grads) * grads)], given as [corr us x g]. *)
Variable corr : X -> X -> X -> R.
(** tp.py:83-86: Kalman filtering of [us] and backward sampling with one key. *)
Variable post_sampling : key -> X -> prog {ffun 'I_N -> X}.

(** tp.py:52-105; [key_sample, key_choice, key_aux = split(key, 3)]. *)
Definition tp1_run (key : key) (state : X * R * X) : prog ((X * R * X) * bool) :=
  let x_star := state.1.1 in let val_x_star := state.1.2 in let grad_x_star := state.2 in
  let key_sample := split key 0 in let key_choice := split key 1 in let key_aux := split key 2 in
  do eps_aux <- aux_noise key_aux;
  let us := x_star + scale grad_x_star + eps_aux in
  do samples0 <- post_sampling key_sample us;
  let vals0 := fun j => log_pdf (samples0 j) in
  let grads0 := fun j => grad (samples0 j) in
  let samples := [ffun i => insert0 x_star samples0 i] in
  let vals := insert0 val_x_star vals0 in
  let grads := [ffun i => insert0 grad_x_star grads0 i] in
  let log_weights := fun i => vals i + corr us (samples i) (grads i) in
  select mv key_choice log_weights (fun i => (samples i, vals i, grads i)).

(** tp.py:110-127, [init]; mala.py imports it. *)
Definition tp1_init (x : X) : X * R * X := (x, log_pdf x, grad x).
End Mala.

(** The kernels on a finite group, with noises drawn from the mass function [noise]. *)
Section Finite.
Variables (X : finZmodType) (N : nat) (log_pdf : X -> R) (grad : X -> X).
Variables (noise ld : X -> R) (scale : X -> X).
Variable log_H : {ffun 'I_N.+1 -> X} -> X -> X -> R.
Variable mv : mover N.+1.

(** mala.py:59: independent noises, drawn with one key. *)
Definition noises : {ffun 'I_N -> X} -> R := fun e => \prod_i noise (e i).

(** mala.py:16-89. *)
Definition mala_kernel : key -> bool -> X * R * X -> prog ((X * R * X) * bool) :=
  mala_run log_pdf grad (fun k => draw k noise) (fun k => draw k noises) ld scale log_H mv.

(** tp.py:52-105. *)
Definition tp1_kernel (corr : X -> X -> X -> R) (post_sampling : key -> X -> prog {ffun 'I_N -> X})
  : key -> X * R * X -> prog ((X * R * X) * bool) :=
  tp1_run log_pdf grad (fun k => draw k noise) scale mv corr post_sampling.
End Finite.

Section Imh.
Variables (X : Type) (N : nat) (log_pdf : X -> R).
(** imh.py:72: [prior_sampling]. *)
Variable prior_sampling : key -> prog {ffun 'I_N -> X}.
Variable mv : mover N.+1.

(** imh.py:47-85; [key_sample, key_choice, key_aux = split(key, 3)]; [key_aux] is not used. *)
Definition imh_kernel (key : key) (state : X * R) : prog ((X * R) * bool) :=
  let x_star := state.1 in let val_x_star := state.2 in
  let key_sample := split key 0 in let key_choice := split key 1 in
  do samples0 <- prior_sampling key_sample;
  let samples := [ffun i => insert0 x_star samples0 i] in
  let log_weights := insert0 val_x_star (fun j => log_pdf (samples0 j)) in
  select mv key_choice log_weights (fun i => (samples i, log_weights i)).

(** imh.py:90-107, [init]. *)
Definition imh_init (x : X) : X * R := (x, log_pdf x).
End Imh.

(** ** The Gaussian quantities (vectors of length [T * d]) *)
Section Formulas.
Variable d : nat.
Local Notation vec := 'cV[R]_d.

(** mala.py:67, 69: [-0.5 * sum(z ** 2) / std_dev ** 2] with [std_dev = sqrt(0.5 * delta)] (line 51). *)
Definition mala_ld (delta : R) (z : vec) : R := - (1 / 2%:R) * sqn z / sqrt (1 / 2%:R * delta) ^+ 2.

(** tp.py:93-94. *)
Definition tp1_corr (delta : R) (us x g : vec) : R :=
  let temp := us - x - (1 / IZR 4 * delta) *: g in \sum_i temp i 0 * g i 0.
End Formulas.
