(** * DriverSpec: vocabulary for the loops around the kernels.
    It does not mention the model of the code. *)
From Coq Require Import Reals.
From mathcomp Require Import all_ssreflect all_algebra.
From Verif Require Import RInst Prog.

Set Implicit Arguments.
Unset Strict Implicit.
Unset Printing Implicit Defensive.
Import GRing.Theory Num.Theory Order.TTheory.
Local Open Scope ring_scope.

(** [b] is a possible outcome of the program. *)
Definition outcome (A : Type) (m : prog A) (a : A) : Prop := exists ks, runs m ks a.

(** The states visited by calling [K] with the successive keys, from [s]. *)
Fixpoint visited (S : Type) (K : key -> S -> prog S) (keys : seq key) (s : S) : prog (seq S) :=
  if keys is k :: keys' then do s' <- K k s; do l <- visited K keys' s'; Ret (s' :: l) else Ret [::].

(** Proportion of the transitions [j, j+1] with [a j], among the last [w] ones up to [i]. *)
Definition recent_rate (w i : nat) (a : nat -> bool) : R :=
  (\sum_(i.+1 - minn w i.+1 <= j < i.+1) (a j)%:R) / (minn w i.+1)%:R.

(** How iteration [i] may change a step size [d] into [d'], when the acceptance rate is
    [a], the target is [ta], the interval is [lo, hi], the warm-up has [w] iterations and
    [r] is the learning rate. *)
Record adapts (ta lo hi : R) (w : nat) (r : R) (i : nat) (a d d' : R) : Prop := {
  adapts_in : lo <= d' <= hi;
  adapts_idle : (i <= w)%N \/ `|a - ta| <= 1 / IZR 20 -> lo <= d <= hi -> d' = d;
  adapts_up : (w < i)%N -> ta + 1 / IZR 20 < a -> lo <= d <= hi -> d < d' \/ d' = hi;
  adapts_down : (w < i)%N -> a < ta - 1 / IZR 20 -> lo <= d <= hi -> d' < d \/ d' = lo;
  (** strictly inside the interval, the relative change is [r] times the relative gap *)
  adapts_size : (w < i)%N -> 1 / IZR 20 < `|a - ta| -> lo < d' < hi ->
    d' - d = r * ((a - ta) / ta) * d }.

(** Learning rate of iteration [i]: [rate / sqrt (i+1)], never below [least]. *)
Definition is_rate (least rate : R) (i : nat) (r : R) : Prop :=
  [/\ least <= r, rate <= r * sqrt (i.+1)%:R
    & r = least \/ rate = r * sqrt (i.+1)%:R].

Definition adapted (ta lo hi : R) (w : nat) (least rate : R) (i : nat) (a d d' : R) : Prop :=
  exists2 r, is_rate least rate i r & adapts ta lo hi w r i a d d'.

(** Every [k]-th element, starting with the first one. *)
Definition thinned (A : Type) (d : A) (k : nat) (s : seq A) : seq A :=
  [seq nth d s (j * k) | j <- iota 0 ((size s + k.-1) %/ k)].
