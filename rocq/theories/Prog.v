(** * Prog: random programs with explicit pseudo-random keys.

    Models the use of [jax.random] throughout /repo/gradient_csmc.  A program is
    a tree; every node is one call [jax.random.<sampler>(key, ...)].  Outcomes
    range over a finite type with a given mass function. *)
From Coq Require Import Reals.
From mathcomp Require Import all_ssreflect all_algebra.
From Verif Require Import RInst.

Set Implicit Arguments.
Unset Strict Implicit.
Unset Printing Implicit Defensive.
Import GRing.Theory Num.Theory Order.TTheory.
Local Open Scope ring_scope.

(** A PRNG key is the path that leads to it in the tree of splits.
    [jax.random.split(key, n)[i]] is [split key i].  The number [n] of children
    is not recorded: two splits of one key share their children (the pessimistic
    reading for key-reuse properties). *)
Definition key := seq nat.
Definition split (k : key) (i : nat) : key := rcons k i.

Inductive prog (A : Type) : Type :=
| Ret of A
| Draw (k : key) (B : finType) (p : B -> R) (f : B -> prog A).

Arguments Ret {A} _.
Arguments Draw {A} k B p f.

Fixpoint bind (A C : Type) (m : prog A) (g : A -> prog C) : prog C :=
  match m with
  | Ret a => g a
  | Draw k B p f => Draw k B p (fun b => bind (f b) g)
  end.

Notation "'do' x <- m ; g" := (bind m (fun x => g))
  (at level 200, x pattern, m at level 100, g at level 200, right associativity).

(** One draw, returning the outcome. *)
Definition draw (k : key) (B : finType) (p : B -> R) : prog B := Draw k B p (fun b => Ret b).

(** ** Reading 1: expectation of a function of the result. *)
Fixpoint E (A : Type) (m : prog A) (f : A -> R) : R :=
  match m with
  | Ret a => f a
  | Draw k B p g => \sum_(b : B) p b * E (g b) f
  end.

(** ** Reading 2: every execution, whatever the outcomes of the draws. *)
Fixpoint always (A : Type) (P : A -> Prop) (m : prog A) : Prop :=
  match m with
  | Ret a => P a
  | Draw k B p g => forall b, always P (g b)
  end.

(** Every execution whose draws all have non-zero mass. *)
Fixpoint almost (A : Type) (P : A -> Prop) (m : prog A) : Prop :=
  match m with
  | Ret a => P a
  | Draw k B p g => forall b, p b != 0 -> almost P (g b)
  end.

(** Every draw is from a probability mass function. *)
Fixpoint proper (A : Type) (m : prog A) : Prop :=
  match m with
  | Ret a => True
  | Draw k B p g =>
      [/\ forall b, 0 <= p b, \sum_b p b = 1 & forall b, proper (g b)]
  end.

(** ** Reading 3: the keys consumed along an execution. *)
Fixpoint runs (A : Type) (m : prog A) (ks : seq key) (a : A) : Prop :=
  match m with
  | Ret a' => ks = [::] /\ a = a'
  | Draw k B p g => exists b ks', ks = k :: ks' /\ runs (g b) ks' a
  end.

(** [jax.lax.scan(body, init, xs)]: the body threads a carry and emits one
    output per input. *)
Fixpoint scan (C I O : Type) (body : C -> I -> prog (C * O)) (c : C) (ins : seq I)
  : prog (C * seq O) :=
  match ins with
  | [::] => Ret (c, [::])
  | i :: ins' =>
      do (c', o) <- body c i;
      do (c'', os) <- scan body c' ins';
      Ret (c'', o :: os)
  end.
