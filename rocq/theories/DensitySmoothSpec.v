(** * DensitySmoothSpec: the joint density that C88 compares al_csmc_s.py with. *)
From Coq Require Import Reals.
From mathcomp Require Import all_ssreflect all_algebra.
From Verif Require Import RInst DensitySpec SmoothSpec.

Set Implicit Arguments.
Unset Strict Implicit.
Unset Printing Implicit Defensive.
Import GRing.Theory Num.Theory Order.TTheory.
Local Open Scope ring_scope.

Section Joint.
(** Functions of time: [q], [s]: parameters and step sizes; [u]: auxiliary variables; [y]: particles.
    [nl]: log-density of the noise; [step]: the step along a gradient. *)
Variables (X : zmodType) (n : nat) (S Q : Type) (nl : S -> X -> R) (step : S -> X -> X).
Variables (val0 : X -> R) (valt : X -> X -> Q -> R) (g0 : X -> X) (ga gb : X -> X -> Q -> X).
Variables (q : nat -> Q) (s : nat -> S) (u : nat -> X) (y : nat -> {ffun 'I_n -> X}).

(** Log-density of a reference of T states with indices [b], of the auxiliary variables (centred at a step along
    the gradient of the log-target of the whole reference) and of the other particles. *)
Definition smooth_log (T : nat) (b : nat -> 'I_n) : R :=
  let x t := y t (b t) in
  full_log val0 valt q T x
  + \sum_(t < T) given_ref (nl (s t)) (x t + step (s t) (full_gradient g0 ga gb q T x t)) (u t) (y t) (b t).

(** The same from the indices given as head and tail. *)
Definition smooth_density (T : nat) (b0 : 'I_n) (bs : seq 'I_n) : R := exp (smooth_log T (nth b0 (b0 :: bs))).
End Joint.

(** The entries 1, ..., m of a function of time. *)
Definition later (A : Type) (m : nat) (f : nat -> A) : seq A := mkseq (fun t => f t.+1) m.
