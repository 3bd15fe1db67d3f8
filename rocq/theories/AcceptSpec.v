(** * AcceptSpec: vocabulary for averages over the moves of a chain.  It does not mention the model of the code. *)
From Coq Require Import Reals.
From mathcomp Require Import all_ssreflect all_algebra.
From Verif Require Import RInst Prog Spec DriverSpec ErgodicSpec ErgodicSingleSpec.

Set Implicit Arguments.
Unset Strict Implicit.
Unset Printing Implicit Defensive.
Import GRing.Theory Num.Theory Order.TTheory.
Local Open Scope ring_scope.

(** One move: the trajectory before, the trajectory after, and which indices changed. *)
Definition move (X : Type) : Type := (seq X * seq X * seq bool)%type.
Definition move_of (X : Type) (I : eqType) (a b : seq X * seq I) : move X := (a.1, b.1, changes a.2 b.2).

(** The moves of a chain that starts at [s] and visits [l]. *)
Definition moves (X : Type) (I : eqType) (s : seq X * seq I) (l : seq (seq X * seq I)) : seq (move X) :=
  pairmap (@move_of X I) s l.

Section Moves.
Variables (X : finType) (n' m : nat) (target : X -> seq X -> R).
Local Notation I := ('I_n'.+1).
Variable kern : key -> X -> seq X -> I -> seq I -> prog (seq X * seq I).

(** The law of a move depends neither on the key nor on the values of the indices. *)
Definition index_free : Prop := forall key key' x0 xs b0 bs b0' bs' (F : move X -> R),
  size xs = m -> size bs = m -> size bs' = m ->
  E (kern key x0 xs b0 bs) (fun r => F (move_of (x0 :: xs, b0 :: bs) r))
  = E (kern key' x0 xs b0' bs') (fun r => F (move_of (x0 :: xs, b0' :: bs') r)).

(** Mean of a function of one move, from a trajectory of the target, with all indices at zero. *)
Definition move_mean (F : move X -> R) : R :=
  path_mean m target (fun xs =>
    E (on_pairs kern [::] (xs, nseq m.+1 ord0)) (fun r => F (move_of (xs, nseq m.+1 ord0) r))).

(** From every start, the mean square of the difference between the average of [F] over every [k]-th move and its
    stationary mean is at most a constant over the number of moves kept, plus a bias. *)
Definition move_averages (bias : R -> R) (e : R) : Prop :=
  forall keys k x0 xs b0 bs (F : move X -> R) c, size xs = m -> size bs = m -> (forall z, `|F z| <= c) ->
    (0 < k)%N -> (0 < size keys)%N ->
    E (visited (on_pairs kern) keys (x0 :: xs, b0 :: bs))
      (fun l => (average F (thinned ([::], [::], [::]) k (moves (x0 :: xs, b0 :: bs) l)) - move_mean F) ^+ 2)
    <= 16%:R * c ^+ 2 * (1 + 4%:R / e) / ((size keys + k.-1) %/ k)%:R + 8%:R * c * (bias c / e).

(** Probability that one move, from a trajectory of the target, changes the index of time [t]. *)
Definition acceptance (t : nat) : R :=
  path_mean m target (fun xs =>
    Pr (on_pairs kern [::] (xs, nseq m.+1 ord0)) (fun r => nth ord0 r.2 t != ord0)).

(** What the sampling loop records of a move: the new trajectory and, for each of the [m.+1] times, whether the index
    changed. *)
Definition of_move (v : move X) : seq X * ('I_m.+1 -> bool) := (v.1.2, fun t : 'I_m.+1 => nth false v.2 t).

(** What is proved of a kernel. *)
Definition settles_moves (bias : R -> R) : Prop :=
  index_free /\ exists2 e, 0 < e <= 1 & move_averages bias e.
End Moves.
Arguments of_move {X} m v.

(** ** Chains on single states *)
Section Positions.
Variables (X : finType) (C : Type) (cached : X -> C) (K : key -> X * C -> prog (X * C * bool)) (target : X -> R).

(** The states and indicators returned by the calls of the chain, and its moves: the position before, the position
    after, the indicator. *)
Definition returned (keys : seq key) (s : X * C) : prog (seq (X * C * bool)) :=
  visited (fun key r => K key r.1) keys (s, false).
Definition position_moves (s : X * C) (l : seq (X * C * bool)) : seq (X * X * bool) :=
  pairmap (fun a b => (a.1.1, b.1.1, b.2)) (s, false) l.

(** The law of a move does not depend on the key. *)
Definition key_free : Prop := forall key key' x (F : X * X * bool -> R),
  E (K key (x, cached x)) (fun r => F (x, r.1.1, r.2)) = E (K key' (x, cached x)) (fun r => F (x, r.1.1, r.2)).

(** Mean of a function of one move from the target; probability that one move from the target sets its indicator. *)
Definition position_mean (F : X * X * bool -> R) : R :=
  mean_under target (fun x => E (K [::] (x, cached x)) (fun r => F (x, r.1.1, r.2))).
Definition position_acceptance : R := mean_under target (fun x => Pr (K [::] (x, cached x)) (fun r => r.2)).

(** As [move_averages], from the states that hold the values of their position. *)
Definition position_averages (bias : R -> R) (e : R) : Prop :=
  forall keys k x (F : X * X * bool -> R) c, (forall z, `|F z| <= c) -> (0 < k)%N -> (0 < size keys)%N ->
    E (returned keys (x, cached x))
      (fun l => (average F (thinned (x, x, false) k (position_moves (x, cached x) l)) - position_mean F) ^+ 2)
    <= 16%:R * c ^+ 2 * (1 + 4%:R / e) / ((size keys + k.-1) %/ k)%:R + 8%:R * c * (bias c / e).

Definition settles_positions (bias : R -> R) : Prop :=
  key_free /\ exists2 e, 0 < e <= 1 & position_averages bias e.
End Positions.
