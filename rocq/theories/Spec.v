(** * Spec: small vocabulary used in the statements of the property theorems.
    It does not mention the model of the code. *)
From Coq Require Import Reals.
From mathcomp Require Import all_ssreflect all_algebra.
From Verif Require Import RInst Prog.

Set Implicit Arguments.
Unset Strict Implicit.
Unset Printing Implicit Defensive.
Import GRing.Theory Num.Theory Order.TTheory.
Local Open Scope ring_scope.

(** Probability vectors. *)
Definition prob_vec (I : finType) (w : I -> R) : Prop :=
  (forall i, 0 <= w i) /\ \sum_i w i = 1.

(** Probability that the result of a program satisfies a boolean predicate. *)
Definition Pr (A : Type) (m : prog A) (e : A -> bool) : R := E m (fun a => (e a)%:R).

(** A law on ancestor arrays [rho] is the unconditional counterpart of a
    conditional resampling program [cond i j] for weights [w]: conditioning
    [rho] on "ancestor [j] is [i]" gives [cond i j], for every [i], [j], and the
    [j]-th ancestor has law [w] under [rho]. *)
Definition conditional_of (n : nat) (w : 'I_n -> R) (rho : {ffun 'I_n -> 'I_n} -> R)
  (cond : 'I_n -> 'I_n -> prog {ffun 'I_n -> 'I_n}) : Prop :=
  forall i j (f : {ffun 'I_n -> 'I_n} -> R),
    w i * E (cond i j) f = \sum_(A : {ffun 'I_n -> 'I_n} | A j == i) rho A * f A.

(** Invariance of the categorical law [w] for a random move on indices. *)
Definition invariant_move (n : nat) (w : 'I_n -> R) (move : 'I_n -> prog 'I_n) : Prop :=
  forall f : 'I_n -> R, \sum_k w k * E (move k) f = \sum_k w k * f k.

Definition reversible_move (n : nat) (w : 'I_n -> R) (move : 'I_n -> prog 'I_n) : Prop :=
  forall k l : 'I_n, w k * Pr (move k) (pred1 l) = w l * Pr (move l) (pred1 k).

(** ** Trajectories *)

(** Sum over all trajectories of [m.+1] states and all sequences of [m.+1]
    particle indices; both are passed as head and tail. *)
Definition traj_sum (X : finType) (n m : nat) (F : X -> seq X -> 'I_n -> seq 'I_n -> R) : R :=
  \sum_(x0 : X) \sum_(b0 : 'I_n) \sum_(xs : m.-tuple X) \sum_(bs : m.-tuple 'I_n)
    F x0 xs b0 bs.

(** Logarithm of the (unnormalised) target of a Feynman-Kac model with
    potentials [G0] and [Gt], along a trajectory:
    [G0 x_0 + sum_t Gt x_(t-1) x_t q_t]. *)
Fixpoint log_path (X Q : Type) (Gt : X -> X -> Q -> R) (x : X) (xs : seq X) (qs : seq Q) : R :=
  match xs, qs with
  | x' :: xs', q :: qs' => Gt x x' q + log_path Gt x' xs' qs'
  | _, _ => 0
  end.

Definition path_target (X Q : Type) (G0 : X -> R) (Gt : X -> X -> Q -> R) (qs : seq Q)
  (x0 : X) (xs : seq X) : R := exp (G0 x0 + log_path Gt x0 xs qs).

(** A Markov kernel on (trajectory, indices) leaves invariant the target times
    the uniform law on indices. *)
Definition leaves_invariant (X : finType) (n m : nat) (target : X -> seq X -> R)
  (kern : X -> seq X -> 'I_n -> seq 'I_n -> prog (seq X * seq 'I_n)) : Prop :=
  forall f : seq X -> seq 'I_n -> R,
    traj_sum m (fun x0 xs b0 bs => target x0 xs * E (kern x0 xs b0 bs) (fun r => f r.1 r.2))
    = traj_sum m (fun x0 xs b0 bs => target x0 xs * f (x0 :: xs) (b0 :: bs)).

(** The same up to [eps] times the total mass, on functions bounded by [c]. *)
Definition nearly_invariant (X : finType) (n m : nat) (target : X -> seq X -> R)
  (kern : X -> seq X -> 'I_n -> seq 'I_n -> prog (seq X * seq 'I_n)) (c eps : R) : Prop :=
  forall f : seq X -> seq 'I_n -> R, (forall xs bs, `|f xs bs| <= c) ->
    `| traj_sum m (fun x0 xs b0 bs => target x0 xs * E (kern x0 xs b0 bs) (fun r => f r.1 r.2))
       - traj_sum m (fun x0 xs b0 bs => target x0 xs * f (x0 :: xs) (b0 :: bs)) |
    <= traj_sum m (fun x0 xs (b0 : 'I_n) bs => target x0 xs * eps).

(** A program samples independent entries; entry [i] has law [mu i]. *)
Definition samples_indep (X : finType) (n : nat) (m : prog {ffun 'I_n -> X}) (mu : 'I_n -> X -> R)
  : Prop :=
  [/\ proper m, forall i, prob_vec (mu i)
    & forall f, E m f = \sum_(x : {ffun 'I_n -> X}) (\prod_i mu i (x i)) * f x].

(** Keep the trajectory and the indices from the result of a kernel. *)
Definition drop_weights (A B C : Type) (m : prog (A * B * C)) : prog (A * B) :=
  do r <- m; Ret r.1.

(** Bound on the error of the forced move with [n] particles (C07), for test
    functions bounded by [c]. *)
Definition force_eps (n : nat) (c : R) : R :=
  4%:R * c * Num.min (exp (- n%:R)) (1 / IZR 1000000000000).

(** ** Particle systems *)
(** A particle system: for time 0 the weights and the particles, for each later
    time the weights, the ancestors and the particles.  The reference trajectory
    [x0 :: xs] sits at the indices [b0 :: bs] and is its own lineage. *)
Definition carries (X L : Type) (n : nat) (x0 : X) (xs : seq X) (b0 : 'I_n) (bs : seq 'I_n)
  (o : (L * {ffun 'I_n -> X}) * seq (L * {ffun 'I_n -> 'I_n} * {ffun 'I_n -> X})) : Prop :=
  [/\ o.1.2 b0 = x0, size o.2 = size xs
    & forall t, (t < size xs)%N -> forall dflt,
        (nth dflt o.2 t).2 (nth b0 bs t) = nth x0 xs t
        /\ (nth dflt o.2 t).1.2 (nth b0 bs t) = nth b0 (b0 :: bs) t].

(** The trajectory and indices [r.1] returned for the reference [x0 :: xs] and
    [b0 :: bs] have the same lengths, and the state does not change at the times where
    the index does not. *)
Definition keeps_shape (X C : Type) (n : nat) (x0 : X) (xs : seq X) (b0 : 'I_n) (bs : seq 'I_n)
  (r : seq X * seq 'I_n * C) : Prop :=
  [/\ size r.1.1 = (size xs).+1, size r.1.2 = (size bs).+1
    & forall t, (t <= size xs)%N ->
       nth b0 r.1.2 t = nth b0 (b0 :: bs) t -> nth x0 r.1.1 t = nth x0 (x0 :: xs) t].
