(** * DiagnosticsSpec: what C79 and C80 say about the autocorrelations and effective sample sizes, independently of
    Diagnostics.v.  [x i c]: iteration [i < n], chain [c < C]. *)
From Coq Require Import Reals.
From mathcomp Require Import all_ssreflect all_fingroup all_algebra.
From Verif Require Import RInst.

Set Implicit Arguments.
Unset Strict Implicit.
Unset Printing Implicit Defensive.
Import GRing.Theory Num.Theory Order.TTheory.
Local Open Scope ring_scope.

(** The mean squared difference of two iterations of one chain, halved: the variance of its empirical distribution. *)
Definition within_chain (n C : nat) (x : nat -> nat -> R) : R :=
  (\sum_(c < C) \sum_(i < n) \sum_(j < n) (x i c - x j c) ^+ 2) / (2%:R * C%:R * n%:R ^+ 2).
(** The mean of a chain, and the mean squared difference of two distinct chains' means, halved. *)
Definition chain_mean (n : nat) (x : nat -> nat -> R) (c : nat) : R := n%:R^-1 * \sum_(i < n) x i c.
Definition between_chains (n C : nat) (x : nat -> nat -> R) : R :=
  (\sum_(c < C) \sum_(d < C) (chain_mean n x c - chain_mean n x d) ^+ 2) / (2%:R * C%:R * (C%:R - 1)).
(** The lagged covariance, averaged over the chains. *)
Definition lagged (n C : nat) (x : nat -> nat -> R) (l : nat) : R :=
  (\sum_(c < C) \sum_(i < n - l) (x i c - chain_mean n x c) * (x (i + l)%N c - chain_mean n x c)) / (C%:R * (n - l)%:R).

(** [r] holds the autocorrelations at the lags [0 .. L]. *)
Definition is_autocorr (L n C : nat) (x : nat -> nat -> R) (r : seq R) :=
  size r = L.+1 /\
  forall l, (l <= L)%N ->
    r`_l = (lagged n C x l + between_chains n C x) / (within_chain n C x + between_chains n C x).

(** All samples are equal; every chain stays where it is; two arrays agree up to an affine map, or up to the order of
    the chains. *)
Definition all_equal (n C : nat) (x : nat -> nat -> R) :=
  forall i j c d, (i < n)%N -> (j < n)%N -> (c < C)%N -> (d < C)%N -> x i c = x j d.
Definition stuck (n C : nat) (x : nat -> nat -> R) :=
  forall i j c, (i < n)%N -> (j < n)%N -> (c < C)%N -> x i c = x j c.
Definition rescaled (n C : nat) (a b : R) (x y : nat -> nat -> R) :=
  forall i c, (i < n)%N -> (c < C)%N -> y i c = a * x i c + b.
Definition reordered (n C : nat) (s : 'S_C) (x y : nat -> nat -> R) :=
  forall i (c : 'I_C), (i < n)%N -> y i c = x i (s c).

(** The effective sample size of one chain from the autocorrelations [r]: they are used up to the first negative one. *)
Definition is_ess (n : nat) (r : seq R) (e : R) :=
  exists2 K, [/\ (K <= size r)%N, forall k, (k < K)%N -> 0 <= r`_k & (K < size r)%N -> r`_K < 0] &
    e = n%:R / (1 + 2%:R * \sum_(1 <= k < K) (1 - k%:R / n%:R) * r`_k).
(** The autocorrelations of a single chain, and their mean over chains. *)
Definition is_chain_autocorr (L n : nat) (x : nat -> R) (r : seq R) :=
  size r = L.+1 /\
  forall l, (l <= L)%N -> r`_l = lagged n 1 (fun i _ => x i) l / within_chain n 1 (fun i _ => x i).
