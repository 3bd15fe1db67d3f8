(** * StepSizes: model of the step sizes of /repo/experiments/lgssm_scaling/experiment.py and of
    [_log_1_m_exp] of /repo/gradient_csmc/utils/common.py.

    Simplified: real arithmetic; the numbers [D], [T] are the parsed integers. *)
From Coq Require Import Reals.
From mathcomp Require Import all_ssreflect all_algebra.
From Verif Require Import RInst Prog Resampling Experiments.

Set Implicit Arguments.
Unset Strict Implicit.
Unset Printing Implicit Defensive.
Import GRing.Theory Num.Theory Order.TTheory.
Local Open Scope ring_scope.

(** ** experiment.py *)
(** Python's [n ** s], for an integer [n] and a float [s]; 0 ** s is 0 for s > 0, 1 for s = 0, an error for s < 0. *)
Definition py_pow (n : nat) (s : R) : option R :=
  if n == 0%N then (if 0 < s then Some 0 else if s == 0 then Some 1 else None) else Some (Rpower n%:R s).
(** Division of floats raises ZeroDivisionError ([None]). *)
Definition py_div (x : R) (y : option R) : option R := obind (fun y => if y == 0 then None else Some (x / y)) y.

(** The value of [--delta-arg] (line 32, by default "na"): the strings compared with in lines 77-84, or another one. *)
Inductive darg := arg_D | arg_T | arg_DT | arg_TD | arg_other.
(** The strings of the grid. *)
Definition darg_of (a : delta_arg) : darg := match a with a_D => arg_D | a_TD => arg_TD end.

(** experiment.py:77-84. *)
Definition DELTA (a : darg) (delta scale : R) (D T : nat) : option R :=
  match a with
  | arg_D => py_div delta (py_pow D scale)
  | arg_T => py_div delta (py_pow T scale)
  | arg_DT | arg_TD => py_div delta (py_pow (D * T) scale)
  | arg_other => Some delta
  end.

(** kernels.py:58-76: a number, or [delta * np.ones((T,))]. *)
Inductive shaped := Number (x : R) | Array (xs : seq R).
Definition shaped_delta (k : kernel_type) (delta : R) (T : nat) : shaped :=
  if shape_delta k then Array (map (fun one => delta * one) (nseq T 1)) else Number delta.
(** experiment.py:77-84 and 101; [delta] is 1 by default (lines 29-30) and distribute.py:85-87 does not pass it. *)
Definition run_delta (r : kernel_type * style * nat * delta_arg) (D T : nat) : option shaped :=
  let: (k, _, sc, a) := r in
  omap (fun d => shaped_delta k d T) (DELTA (darg_of a) 1 (1 / sc%:R) D T).
(** experiment.py:102. *)
Definition SIGMA (log_var : R) : R := Rpower 10%:R (log_var / 2%:R).

(** distribute.py:75-77, for any lists of log-variances (in tenths), T and D: [combination_1], [combination_2] and [combination_3]
    are instances ([combination_3] is [lg_combination]). *)
Definition lg_grid (lvs : seq int) (Ts Ds : seq nat) : seq (int * nat * nat * (kernel_type * style * nat * delta_arg)) :=
  product (product (product lvs Ts) Ds) lg_rows.

(** ** common.py *)
(** [jnp.log]: minus infinity ([None]) at 0; only used at nonnegative numbers here. *)
Definition jnp_log (x : R) : option R := if 0 < x then Some (ln x) else None.
(** common.py:75-78; [jnp.expm1(x)] is exp(x) - 1. *)
Definition log_1_m_exp n (arr : 'I_n.+1 -> R) : 'I_n.+1 -> option R :=
  let max_arr := amax arr in
  fun i => omap (fun l => l + max_arr) (jnp_log (- (exp (arr i - max_arr) - 1))).
