(** * ErgodicSingleSpec: vocabulary for the long run of a chain on single states.  It does not mention the model of
    the code. *)
From Coq Require Import Reals.
From mathcomp Require Import all_ssreflect all_algebra.
From Verif Require Import RInst Prog DriverSpec ErgodicSpec.

Set Implicit Arguments.
Unset Strict Implicit.
Unset Printing Implicit Defensive.
Import GRing.Theory Num.Theory Order.TTheory.
Local Open Scope ring_scope.

(** Mean of [f] under the law proportional to [target]. *)
Definition mean_under (X : finType) (target f : X -> R) : R := (\sum_x target x * f x) / \sum_x target x.

Section Single.
Variables (X : finType) (C : Type).
(** A kernel on states made of a position and of values computed from it; it also returns an indicator. *)
Variables (cached : X -> C) (K : key -> X * C -> prog (X * C * bool)).

(** The kernel without its indicator. *)
Definition next (k : key) (s : X * C) : prog (X * C) := do r <- K k s; Ret r.1.

(** From any two starts and with any keys, the laws of the positions after [t] calls differ by at most 2 c (1 - e)^t. *)
Definition forgets_position : Prop :=
  exists2 e, 0 < e <= 1 & forall keys keys' x y (f : X -> R) c, size keys = size keys' -> (forall z, `|f z| <= c) ->
    `|E (after next keys (x, cached x)) (fun s => f s.1) - E (after next keys' (y, cached y)) (fun s => f s.1)|
    <= 2%:R * c * (1 - e) ^+ size keys.

(** From every start the law of the position converges to the target, up to a bias, and so do averages along every
    [k]-th visited position. *)
Definition settles_position (target : X -> R) (bias : R -> R) : Prop :=
  exists2 e, 0 < e <= 1 &
    (forall keys x (f : X -> R) c, (forall z, `|f z| <= c) ->
       `|E (after next keys (x, cached x)) (fun s => f s.1) - mean_under target f|
       <= 2%:R * c * (1 - e) ^+ size keys + bias c / e)
    /\ (forall keys k x (f : X -> R) c, (forall z, `|f z| <= c) -> (0 < k)%N -> (0 < size keys)%N ->
       E (visited next keys (x, cached x))
         (fun l => (average f (thinned x k [seq s.1 | s <- l]) - mean_under target f) ^+ 2)
       <= 4%:R * c ^+ 2 * (1 + 2%:R / e) / ((size keys + k.-1) %/ k)%:R + 4%:R * c * (bias c / e)).
End Single.

(** A kernel on states ((position, value), gradient), on states (position, (value, gradient)). *)
Definition regrouped (X V G : Type) (K : key -> X * V * G -> prog (X * V * G * bool)) (k : key) (s : X * (V * G))
  : prog (X * (V * G) * bool) :=
  do r <- K k (s.1, s.2.1, s.2.2); Ret ((r.1.1.1, (r.1.1.2, r.1.2)), r.2).
