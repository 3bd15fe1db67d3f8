(** * Esjd: model of what lgssm_scaling/experiment.py computes from the kernels: the expected squared jump distance. *)
From Coq Require Import Reals.
From mathcomp Require Import all_ssreflect all_algebra.
From Verif Require Import RInst Prog Experiments ErgodicSpec.

Set Implicit Arguments.
Unset Strict Implicit.
Unset Printing Implicit Defensive.
Import GRing.Theory Num.Theory Order.TTheory.
Local Open Scope ring_scope.

Section Esjd.
(** [D]: data; [X]: states at one time, with coordinates [coord]; [S]: states of the kernel, which contain a trajectory
    ([path], the first component in the code). *)
Variables (D X S : Type) (dx : nat) (coord : X -> 'I_dx -> R) (path : S -> seq X).
(** [draws]: the initial trajectories, experiment.py:124-135 ([sampling.sampling], C38); [start]: [init], line 137;
    [kern data]: the kernel of [kernel_maker] for the step size [DELTA], lines 116-122. *)
Variables (get_data : key -> prog D) (draws : key -> D -> prog (nat -> seq X)) (start : D -> seq X -> S).
Variable kern : D -> key -> S -> prog S.

(** experiment.py:144, for one time: [jnp.sum((xs - next_xs) ** 2, -1)]. *)
Definition sq_jump (x y : X) : R := \sum_i (coord x i - coord y i) ^+ 2.

(** experiment.py:141-144. *)
Definition esjd (data : D) (k : key) (state : S) : prog (seq R) :=
  do next <- kern data k state;
  Ret [seq sq_jump p.1 p.2 | p <- zip (path state) (path next)].

(** experiment.py:149, [esjd_vals.mean(0)], as a function of the time. *)
Definition mean_rows (rows : seq (seq R)) (t : nat) : R := average (fun row => nth 0 row t) rows.

(** experiment.py:110-149 and 155-159: row [k] of [esjd_all]. *)
Definition lg_esjd_run (key : key) (K M : nat) : prog (seq (nat -> R)) :=
  do out <- lg_experiment get_data
    (fun key data => do xs <- draws key data; Ret (fun m => start data (xs m))) esjd key K M;
  Ret [seq mean_rows rows | rows <- out.2].
End Esjd.
