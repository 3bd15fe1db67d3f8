(** * EsjdSpec: vocabulary for C74.  It does not mention the model of the code. *)
From Coq Require Import Reals.
From mathcomp Require Import all_ssreflect all_algebra.
From Verif Require Import RInst Prog ErgodicSpec.

Set Implicit Arguments.
Unset Strict Implicit.
Unset Printing Implicit Defensive.
Import GRing.Theory Num.Theory Order.TTheory.
Local Open Scope ring_scope.

(** The first [M] entries all have the law given by [mean], and are independent in pairs. *)
Definition pairwise_draws (Z : Type) (mean : (Z -> R) -> R) (M : nat) (p : prog (nat -> Z)) : Prop :=
  [/\ proper p,
      forall i f, (i < M)%N -> E p (fun z => f (z i)) = mean f
    & forall i j f g, (i < M)%N -> (j < M)%N -> i != j -> E p (fun z => f (z i) * g (z j)) = mean f * mean g].

(** [jump_mean m target coord law t]: mean of the square of the Euclidean distance between the states at time [t] of a
    trajectory drawn from the target and of the trajectory drawn from it by [law]. *)
Definition jump_mean (X : finType) (dx m : nat) (target : X -> seq X -> R) (coord : X -> 'I_dx -> R) (x : X)
    (law : seq X -> prog (seq X)) (t : nat) : R :=
  path_mean m target (fun xs => E (law xs) (fun ys => \sum_i (coord (nth x xs t) i - coord (nth x ys t) i) ^+ 2)).

(** Its variance. *)
Definition jump_variance (X : finType) (dx m : nat) (target : X -> seq X -> R) (coord : X -> 'I_dx -> R) (x : X)
    (law : seq X -> prog (seq X)) (t : nat) : R :=
  path_mean m target (fun xs => E (law xs) (fun ys =>
    (\sum_i (coord (nth x xs t) i - coord (nth x ys t) i) ^+ 2 - jump_mean m target coord x law t) ^+ 2)).

(** [law] leaves the target invariant. *)
Definition path_invariant (X : finType) (m : nat) (target : X -> seq X -> R) (law : seq X -> prog (seq X)) : Prop :=
  forall f, path_mean m target (fun xs => E (law xs) f) = path_mean m target f.

(** Variance and lag-one autocovariance of coordinate [i] of the state of time [t]. *)
Section Moments.
Variables (X : finType) (dx m : nat) (target : X -> seq X -> R) (coord : X -> 'I_dx -> R) (x : X).
Variables (law : seq X -> prog (seq X)) (t : nat) (i : 'I_dx).
Definition at_time (xs : seq X) : R := coord (nth x xs t) i.
Definition variance : R := path_mean m target (fun xs => (at_time xs - path_mean m target at_time) ^+ 2).
Definition autocovariance : R := path_mean m target (fun xs =>
  (at_time xs - path_mean m target at_time) * E (law xs) (fun ys => at_time ys - path_mean m target at_time)).
End Moments.

(** One step of a kernel from a trajectory whose indices are all zero; the new trajectory is kept. *)
Definition from_zeros (X : Type) (n' m : nat)
    (kern : key -> X -> seq X -> 'I_n'.+1 -> seq 'I_n'.+1 -> prog (seq X * seq 'I_n'.+1)) (key : key) (xs : seq X)
    : prog (seq X) :=
  do r <- on_pairs kern key (xs, nseq m.+1 ord0); Ret r.1.

(** An experiment [run get_data key K] with [K] repetitions estimates the mean jump of [law d]: a repetition runs the
    same program on its own data; given the data, for every time, its value has mean [jump_mean], and the mean square
    of its error is the variance of one jump over [M]. *)
Definition estimates_jump (D : Type) (X : finType) (dx m M : nat) (target : D -> X -> seq X -> R)
    (coord : X -> 'I_dx -> R) (x : X) (law : D -> seq X -> prog (seq X))
    (run : (key -> prog D) -> key -> nat -> prog (seq (nat -> R))) : Prop :=
  forall (get_data : key -> prog D) key K k, (forall key, proper (get_data key)) -> (k < K)%N ->
  [/\ forall F, E (run get_data key K) (fun out => nth 0 [seq F r | r <- out] k)
        = E (get_data (split (split key k) 0))
            (fun d => E (run (fun=> Ret d) key K) (fun out => nth 0 [seq F r | r <- out] k)),
      forall d t, (t <= m)%N -> E (run (fun=> Ret d) key K) (fun out => nth 0 [seq r t | r <- out] k)
        = jump_mean m (target d) coord x (law d) t
    & forall d t, (t <= m)%N ->
        E (run (fun=> Ret d) key K) (fun out => nth 0 [seq (r t - jump_mean m (target d) coord x (law d) t) ^+ 2 | r <- out] k)
        = jump_variance m (target d) coord x (law d) t / M%:R].
