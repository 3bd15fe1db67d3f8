(** * NanImh: model of /repo/gradient_csmc/imh.py when the likelihood may vanish.

    As [imh_kernel] of Single.v, with the numbers of NanCsmc.v: log-likelihoods may be
    [-inf], and what [force_move] (utils/common.py:8-49) does with weights that are not
    finite is not specified; a run that gets there has no result, [None]. *)
From Coq Require Import Reals.
From mathcomp Require Import all_ssreflect all_algebra.
From Verif Require Import RInst Prog Resampling Single NanCsmc.

Set Implicit Arguments.
Unset Strict Implicit.
Unset Printing Implicit Defensive.
Import GRing.Theory Num.Theory Order.TTheory.
Local Open Scope ring_scope.

(** [a / b] (imh.py:79, mala.py:82, tp.py:98), for zeros without sign. *)
Definition xdiv (a b : xnum) : xnum :=
  match a, b with
  | Fin x, Fin y =>
      if y != 0 then Fin (x / y) else if x == 0 then NaN else if 0 < x then PInf else NInf
  | Fin _, (PInf | NInf) => Fin 0
  | PInf, Fin y => if 0 <= y then PInf else NInf
  | NInf, Fin y => if 0 <= y then NInf else PInf
  | _, _ => NaN
  end.

(** imh.py:78-79, mala.py:81-82, tp.py:97-98. *)
Definition xself_normalise (n' : nat) (lw : 'I_n'.+1 -> xnum) : 'I_n'.+1 -> xnum :=
  let w := fun i => xexp (xsub (lw i) (xamax lw)) in
  fun i => xdiv (w i) (\big[xadd/Fin 0]_j w j).

(** imh.py:81-85, as [select] of Single.v; also mala.py:84-89 and tp.py:100-105. *)
Definition xselect (Y : Type) (n' : nat) (mv : mover n'.+1) (key_choice : key) (lw : 'I_n'.+1 -> xnum)
  (payload : 'I_n'.+1 -> Y) : prog (option (Y * bool)) :=
  odo r <- on_weights (xself_normalise lw) (fun w => mv key_choice w ord0);
  Ret (Some (payload r.1, r.1 != ord0)).

Section Imh.
Variables (X : Type) (N : nat) (log_pdf : X -> xnum).
(** imh.py:72: [prior_sampling]. *)
Variable prior_sampling : key -> prog {ffun 'I_N -> X}.
(** [force_move] in the code (imh.py:81). *)
Variable mv : mover N.+1.

(** imh.py:47-85. *)
Definition ximh_kernel (key : key) (state : X * xnum) : prog (option ((X * xnum) * bool)) :=
  let x_star := state.1 in let val_x_star := state.2 in
  let key_sample := split key 0 in let key_choice := split key 1 in
  do samples0 <- prior_sampling key_sample;
  let samples := [ffun i => insert0 x_star samples0 i] in
  let log_weights := insert0 val_x_star (fun j => log_pdf (samples0 j)) in
  xselect mv key_choice log_weights (fun i => (samples i, log_weights i)).

(** imh.py:90-107, [init]. *)
Definition ximh_init (x : X) : X * xnum := (x, log_pdf x).

(** utils/mcmc_utils.py:82: the kernel with one key after the other. *)
Fixpoint ximh_runs (keys : seq key) (state : X * xnum) : prog (option (X * xnum)) :=
  if keys is k :: ks then odo r <- ximh_kernel k state; ximh_runs ks r.1 else Ret (Some state).
End Imh.
