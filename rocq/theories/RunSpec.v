(** * RunSpec: vocabulary for the averages recorded by a whole experiment.  It does not mention the model of the code. *)
From Coq Require Import Reals.
From mathcomp Require Import all_ssreflect all_algebra.
From Verif Require Import RInst Prog ErgodicSpec.

Set Implicit Arguments.
Unset Strict Implicit.
Unset Printing Implicit Defensive.
Import GRing.Theory Num.Theory Order.TTheory.
Local Open Scope ring_scope.

Section Run.
(** [D]: data; [Z]: what a chain records at one step; [mean d f]: the mean of [f] under the target given by [d];
    [run burnin n_samples key K M]: an experiment with [K] repetitions of [M] chains, returning for each repetition and
    each chain the data and what the chain recorded. *)
Variables (D Z : Type) (mean : D -> (Z -> R) -> R) (bias : R -> R).
Variable run : nat -> nat -> key -> nat -> nat -> prog (unit * seq (seq (D * seq Z))).

(** The value of [F] on the record of chain [j] of repetition [i]. *)
Definition of_chain (i j : nat) (F : D * seq Z -> R) (out : seq (seq (D * seq Z))) : R :=
  nth 0 [seq F a | a <- nth [::] out i] j.

(** Every repetition of every execution returns [M] records of [n] steps. *)
Definition full_records : Prop := forall burnin n key K M,
  always (fun out => size out.2 = K /\ all (fun l => (size l == M) && all (fun a : D * seq Z => size a.2 == n) l) out.2)
    (run burnin n key K M).

(** There is a rate, depending only on the key and on the number of repetitions, such that the mean square of the
    difference between the average recorded by any chain and the mean under the target given by the data of its
    repetition is at most a constant over the number of steps, plus a bias: whatever the number of chains, the
    length of the burn-in and the function. *)
Definition recorded_converge : Prop := forall (key : key) (K : nat), exists2 e, 0 < e <= 1 &
  forall M burnin n i j (f : D -> Z -> R) c, (i < K)%N -> (j < M)%N -> (0 < n)%N -> (forall d z, `|f d z| <= c) ->
    E (run burnin n key K M)
      (fun out => of_chain i j (fun a => (average (f a.1) a.2 - mean a.1 (f a.1)) ^+ 2) out.2)
    <= 4%:R * c ^+ 2 * (1 + 2%:R / e) / n%:R + 4%:R * c * (bias c / e).

(** In an unbiased experiment, every chain is likely to record averages close to the mean under the target. *)
Definition recorded_consistent : Prop := forall (key : key) (K : nat) (h eps c : R), 0 < h -> 0 < eps ->
  exists N, forall M burnin n i j (f : D -> Z -> R), (i < K)%N -> (j < M)%N -> (N <= n)%N -> (forall d z, `|f d z| <= c) ->
    E (run burnin n key K M)
      (fun out => of_chain i j (fun a => ((h <= `|average (f a.1) a.2 - mean a.1 (f a.1)|)%R : bool)%:R) out.2) <= eps.

(** Every draw is from a probability mass function. *)
Definition proper_run : Prop := forall burnin n key K M, proper (run burnin n key K M).

(** What is proved of an experiment. *)
Definition sound_run : Prop :=
  [/\ recorded_converge, full_records, proper_run & (forall c, bias c = 0) -> recorded_consistent].
End Run.

(** ** Records *)
(** What one looks at in the records of an experiment. *)
Definition viewed (A B : Type) (view : A -> B) (run : nat -> nat -> key -> nat -> nat -> prog (unit * seq (seq A)))
  : nat -> nat -> key -> nat -> nat -> prog (unit * seq (seq B)) :=
  fun burnin n key K M => do out <- run burnin n key K M; Ret (out.1, [seq [seq view a | a <- l] | l <- out.2]).

Section Records.
(** The record of a chain: the data and the step sizes of its repetition, its samples and its indicators. *)
Variables (D P Z W : Type).
Definition record : Type := (D * P * (seq Z * seq W))%type.
Definition samples_of (a : record) : D * seq Z := (a.1.1, a.2.1).
Definition moves_of (a : record) : D * P * seq (Z * W) := (a.1, zip a.2.1 a.2.2).
End Records.

(** The acceptance rates recorded by any chain: the mean square of their difference to the rates [rate d p] given by the
    data and the step sizes of its repetition is at most a constant over the number of steps, plus a bias. *)
Definition rates_converge (D P Z J : Type) (rate : D -> P -> J -> R) (bias : R -> R)
    (run : nat -> nat -> key -> nat -> nat -> prog (unit * seq (seq (record D P Z (J -> bool))))) : Prop :=
  forall (key : key) (K : nat), exists2 e, 0 < e <= 1 &
  forall M burnin n i j (t : J), (i < K)%N -> (j < M)%N -> (0 < n)%N ->
    E (run burnin n key K M) (fun out =>
      nth 0 [seq (average (fun b : J -> bool => (b t)%:R) a.2.2 - rate a.1.1 a.1.2 t) ^+ 2 | a <- nth [::] out.2 i] j)
    <= 4%:R * (1 + 2%:R / e) / n%:R + 4%:R * (bias 1 / e).

(** ** Standard deviations *)
(** [m] is linear and monotone, and is one on the constant one. *)
Definition is_mean (Z : Type) (m : (Z -> R) -> R) : Prop :=
  [/\ forall a b f g, m (fun z => a * f z + b * g z) = a * m f + b * m g,
      forall f g, (forall z, f z <= g z) -> m f <= m g & m (fun=> 1) = 1].
Definition deviation (Z : Type) (m : (Z -> R) -> R) (f : Z -> R) : R := sqrt (m (fun z => (f z - m f) ^+ 2)).

(** The standard deviations [std f l] recorded by any chain converge to those of the target, in mean fourth power. *)
Definition deviations_converge (D Z : Type) (mean : D -> (Z -> R) -> R) (bias : R -> R) (std : (Z -> R) -> seq Z -> R)
    (run : nat -> nat -> key -> nat -> nat -> prog (unit * seq (seq (D * seq Z)))) : Prop :=
  forall (key : key) (K : nat), exists2 e, 0 < e <= 1 &
  forall M burnin n i j (f : D -> Z -> R) c, (i < K)%N -> (j < M)%N -> (0 < n)%N -> (forall d z, `|f d z| <= c) ->
    E (run burnin n key K M)
      (fun out => of_chain i j (fun a => (std (f a.1) a.2 - deviation (mean a.1) (f a.1)) ^+ 4) out.2)
    <= 40%:R * c ^+ 4 * (1 + 2%:R / e) / n%:R + 8%:R * c ^+ 2 * (bias (c ^+ 2) / e) + 32%:R * c ^+ 3 * (bias c / e).

Definition deviations_consistent (D Z : Type) (mean : D -> (Z -> R) -> R) (std : (Z -> R) -> seq Z -> R)
    (run : nat -> nat -> key -> nat -> nat -> prog (unit * seq (seq (D * seq Z)))) : Prop :=
  forall (key : key) (K : nat) (h eps c : R), 0 < h -> 0 < eps ->
  exists N, forall M burnin n i j (f : D -> Z -> R), (i < K)%N -> (j < M)%N -> (N <= n)%N -> (forall d z, `|f d z| <= c) ->
    E (run burnin n key K M) (fun out =>
      of_chain i j (fun a => ((h <= `|std (f a.1) a.2 - deviation (mean a.1) (f a.1)|)%R : bool)%:R) out.2) <= eps.
