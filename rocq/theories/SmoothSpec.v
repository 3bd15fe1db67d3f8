(** * SmoothSpec: what al_csmc_s.py and atp_csmc_s.py are compared with: the gradient of a whole
    log-target, written with functions of time, and lineages. *)
From Coq Require Import Reals.
From mathcomp Require Import all_ssreflect all_algebra.
From Verif Require Import RInst.

Set Implicit Arguments.
Unset Strict Implicit.
Unset Printing Implicit Defensive.
Import GRing.Theory Num.Theory Order.TTheory.
Local Open Scope ring_scope.

Section Target.
Variables (X : zmodType) (Q : Type).
Variables (val0 : X -> R) (valt : X -> X -> Q -> R) (g0 : X -> X) (ga gb : X -> X -> Q -> X).
(** [x t]: state at time t; [q t]: parameter of the potential of time t (t >= 1). *)
Variables (q : nat -> Q).

(** Log-target of a trajectory of T states. *)
Definition full_log (T : nat) (x : nat -> X) : R :=
  val0 (x 0%N) + \sum_(t < T.-1) valt (x t) (x t.+1) (q t.+1).

(** Its gradient with respect to the state of time t, if [g0], [ga], [gb] are the gradients of
    [val0] and of [valt] in its first and second argument. *)
Definition full_gradient (T : nat) (x : nat -> X) (t : nat) : X :=
  (if t is t'.+1 then gb (x t') (x t) (q t) else g0 (x 0%N))
  + (if (t.+1 < T)%N then ga (x t) (x t.+1) (q t.+1) else 0).
End Target.

(** [g] is the gradient of [F] at [x], for the pairing [dot]: every directional derivative of
    [F] at [x] is given by [g]. *)
Definition slope (X : lmodType R) (dot : X -> X -> R) (F : X -> R) (x g : X) : Prop :=
  forall v, derivable_pt_lim (fun h => F (x + h *: v)) 0%coqR (dot g v).

(** [x] with the state of time t replaced. *)
Definition set_time (X : Type) (x : nat -> X) (t : nat) (z : X) (i : nat) : X := if i == t then z else x i.

(** Entry [t] of [prevs] holds, for every particle of generation t + 1, the state of its recorded
    ancestor in generation t. *)
Definition own_predecessors (X : Type) (n : nat) (d : {ffun 'I_n -> X}) (dA : {ffun 'I_n -> 'I_n})
  (pops : seq {ffun 'I_n -> X}) (ancs : seq {ffun 'I_n -> 'I_n}) (prevs : seq {ffun 'I_n -> X}) (t : nat) : Prop :=
  forall i, nth d prevs t i = nth d pops t (nth dA ancs t i).
