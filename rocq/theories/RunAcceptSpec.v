(** * RunAcceptSpec: vocabulary for the moves and the acceptance rates recorded by a whole experiment.  It does not
    mention the model of the code. *)
From Coq Require Import Reals.
From mathcomp Require Import all_ssreflect all_algebra.
From Verif Require Import RInst Prog ErgodicSpec ErgodicSingleSpec AcceptSpec RunSpec.

Set Implicit Arguments.
Unset Strict Implicit.
Unset Printing Implicit Defensive.
Import GRing.Theory Num.Theory Order.TTheory.
Local Open Scope ring_scope.

(** Averages of functions of a recorded trajectory and of its indicators of change converge to their mean over one
    stationary move of the kernel that the data [d] and the adapted step sizes [delta] give; in particular the
    acceptance rates converge to the stationary acceptance probabilities of this kernel. *)
Definition sound_moves (D : Type) (X : finType) (n' m : nat) (target : D -> X -> seq X -> R)
    (kern : D -> ('I_m.+1 -> R) -> key -> X -> seq X -> 'I_n'.+1 -> seq 'I_n'.+1 -> prog (seq X * seq 'I_n'.+1))
    (bias : R -> R)
    (run : nat -> nat -> key -> nat -> nat ->
           prog (unit * seq (seq (record D ('I_m.+1 -> R) (seq X) ('I_m.+1 -> bool))))) : Prop :=
  sound_run (fun a F => move_mean m (target a.1) (kern a.1 a.2) (fun v => F (of_move m v))) bias
    (viewed (@moves_of _ _ _ _) run)
  /\ rates_converge (fun d delta (t : 'I_m.+1) => acceptance m (target d) (kern d delta) t) bias run.

(** The same for chains on single states; the record of a chain has one indicator at each step. *)
Definition flagged (D P Z : Type) (a : record D P Z bool) : record D P Z (unit -> bool) :=
  (a.1, (a.2.1, [seq (fun=> b) | b <- a.2.2])).

Definition sound_positions (D : Type) (X : finType) (C : Type) (cached : D -> X -> C) (target : D -> X -> R)
    (kern : D -> R -> key -> X * C -> prog (X * C * bool)) (bias : R -> R)
    (run : nat -> nat -> key -> nat -> nat -> prog (unit * seq (seq (record D R X bool)))) : Prop :=
  sound_run (fun a F => position_mean (cached a.1) (kern a.1 a.2) (target a.1) (fun v => F (v.1.2, v.2))) bias
    (viewed (@moves_of _ _ _ _) run)
  /\ rates_converge (fun d delta (_ : unit) => position_acceptance (cached d) (kern d delta) (target d)) bias
       (viewed (@flagged _ _ _) run).
