(** * Property theorems C82: what the tests of the repository sample or compute, for all sizes and weights.  Statements only;
    the proofs are in MoveTests.v.

    utils/common.py:81-156 compares frequencies over 10^6 keys, for 8 equal weights, for (1, 0, ..., 0) and for (0.1, 0.9), with
    numbers; t_atp_csmc_f.py:327-344 reverses one step of one stationary chain. *)
From Coq Require Import Reals.
From mathcomp Require Import all_ssreflect all_algebra.
From Verif Require Import RInst Prog Resampling Spec Kalman Twisted MoveTests.

Set Implicit Arguments.
Unset Strict Implicit.
Unset Printing Implicit Defensive.
Import GRing.Theory Num.Theory Order.TTheory.
Local Open Scope ring_scope.

(** ** C82 *)
(** Equal weights: the forced move leaves and picks one of the other indices, all alike. *)
Theorem C82_uniform (m : nat) (key : key) (k : 'I_m.+2) : let w := fun _ : 'I_m.+2 => 1 / m.+2%:R in
  [/\ forall l, Pr (force_move key w k) (fun r => r.1 == l) = if l == k then 0 else 1 / m.+1%:R,
      always (fun r => r.2 = 1) (force_move key w k),
      forall l, Pr (barker_move key w k) (fun r => r.1 == l) = 1 / m.+2%:R &
      always (fun r => r.2 = m.+1%:R / m.+2%:R) (barker_move key w k)].
Proof. exact: uniform_test. Qed.
Print Assumptions C82_uniform.

(** All weight on [a]: both moves return [a]; they report an acceptance exactly when they did not start there. *)
Theorem C82_degenerate (m : nat) (key : key) (a k : 'I_m.+1) : let w := fun i : 'I_m.+1 => (i == a)%:R : R in
  [/\ Pr (force_move key w k) (fun r => r.1 == a) = 1, always (fun r => r.2 = (k != a)%:R) (force_move key w k),
      Pr (barker_move key w k) (fun r => r.1 == a) = 1 & always (fun r => r.2 = (k != a)%:R) (barker_move key w k)].
Proof. exact: degenerate_test. Qed.
Print Assumptions C82_degenerate.

(** Two weights: the forced move is the Metropolis-Hastings step between them, and reports its acceptance probability. *)
Theorem C82_two (key : key) (w : 'I_2 -> R) (k l : 'I_2) : prob_vec w -> k != l -> 0 < w k ->
  w k < 1 - 1 / IZR 1000000000000 ->
  [/\ Pr (force_move key w k) (fun r => r.1 == l) = Num.min 1 ((1 - w k) / w k),
      always (fun r => r.2 = Num.min 1 ((1 - w k) / w k)) (force_move key w k),
      Pr (barker_move key w k) (fun r => r.1 == l) = w l & always (fun r => r.2 = w l) (barker_move key w k)].
Proof. exact: two_test'. Qed.
Print Assumptions C82_two.

(** Dynamics that leave the standard normal law stationary, symmetric (so reversible): reversing any number of steps returns
    them unchanged. *)
Theorem C82_reversed (d T : nat) (F : 'M[R]_d) : F^T = F ->
  let f := Dyn F (1%:M - F *m F) 0 in
  get_reversed_dynamics (0, 1%:M) (nseq T f) = ((0, 1%:M), nseq T f).
Proof. exact: reversed_test. Qed.
Print Assumptions C82_reversed.

(** The numbers in the tests. *)
Example ex_tests (w : 'I_2 -> R) : w 0 = 1 / 10%:R -> w 1 = 9%:R / 10%:R ->
  [/\ prob_vec w, 0 < w 0 < 1 - 1 / IZR 1000000000000, 0 < w 1 < 1 - 1 / IZR 1000000000000,
      Num.min 1 ((1 - w 0) / w 0) = 1 & Num.min 1 ((1 - w 1) / w 1) = 1 / 9%:R].
Proof. exact: two_numbers. Qed.
