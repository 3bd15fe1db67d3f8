(** * ErgodicSpec: vocabulary for the long run of a chain.  It does not mention the model of the code. *)
From Coq Require Import Reals.
From mathcomp Require Import all_ssreflect all_algebra.
From Verif Require Import RInst Prog Spec DriverSpec.

Set Implicit Arguments.
Unset Strict Implicit.
Unset Printing Implicit Defensive.
Import GRing.Theory Num.Theory Order.TTheory.
Local Open Scope ring_scope.

(** ** Moving indices around modulo the number of particles *)
Section Moved.
Variable n' : nat.
Local Notation I := ('I_n'.+1).
Definition moved_w (a : I) (w : I -> R) : I -> R := fun l => w (l - a).
Definition moved (Y : Type) (a : I) (x : {ffun I -> Y}) : {ffun I -> Y} := [ffun l => x (l - a)].
(** Ancestors: indices of the new generation move by [a'], indices of the old one by [a]. *)
Definition moved_anc (a a' : I) (A : {ffun I -> I}) : {ffun I -> I} := [ffun l => A (l - a') + a].

(** A conditional resampling program, and a move of the final index, treat indices alike up to rotation; their
    laws do not depend on the key. *)
Definition rotates_anc (rs : key -> (I -> R) -> I -> I -> prog {ffun I -> I}) : Prop :=
  forall key key' w a a' i j f, prob_vec w ->
    E (rs key (moved_w a w) (i + a) (j + a')) f = E (rs key' w i j) (fun A => f (moved_anc a a' A)).
Definition rotates_move (mv : key -> (I -> R) -> I -> prog I) : Prop :=
  forall key key' w a k f, prob_vec w ->
    E (mv key (moved_w a w) (k + a)) f = E (mv key' w k) (fun i => f (i + a)).

(** When all weights are positive, every index other than the reference may have a descendant other than the
    reference, and may be selected at the end. *)
Definition spreads (rs : key -> (I -> R) -> I -> I -> prog {ffun I -> I}) : Prop :=
  forall key w i j m, prob_vec w -> (forall l, 0 < w l) -> m != i ->
    exists2 l, l != j & 0 < Pr (rs key w i j) (fun A => A l == m).
Definition leaves_index (mv : key -> (I -> R) -> I -> prog I) : Prop :=
  forall key w k l, prob_vec w -> (forall l, 0 < w l) -> l != k -> 0 < Pr (mv key w k) (pred1 l).
End Moved.

(** ** Chains *)
(** The state after one call of [K] per key. *)
Fixpoint after (S : Type) (K : key -> S -> prog S) (keys : seq key) (s : S) : prog S :=
  if keys is k :: keys' then do s' <- K k s; after K keys' s' else Ret s.

(** A kernel on trajectories and indices given as head and tail, on pairs of sequences. *)
Definition on_pairs (X I : Type) (kern : key -> X -> seq X -> I -> seq I -> prog (seq X * seq I))
  (k : key) (s : seq X * seq I) : prog (seq X * seq I) :=
  if s is (x0 :: xs, b0 :: bs) then kern k x0 xs b0 bs else Ret s.

(** Which entries of two sequences of indices differ; and the same, compared from the ends. *)
Definition changes (I : eqType) (bs bs' : seq I) : seq bool := [seq p.1 != p.2 | p <- zip bs bs'].
Definition rchanges (I : eqType) (bs bs' : seq I) : seq bool := rev (changes (rev bs) (rev bs')).

(** Mean of [f] under the law proportional to [target] on trajectories of [m.+1] states. *)
Definition path_sum (X : finType) (m : nat) (F : X -> seq X -> R) : R := \sum_x0 \sum_(xs : m.-tuple X) F x0 xs.
Definition path_mean (X : finType) (m : nat) (target : X -> seq X -> R) (f : seq X -> R) : R :=
  path_sum m (fun x0 xs => target x0 xs * f (x0 :: xs)) / path_sum m target.

(** From every start, after [t] steps, the mean of every function bounded by [c] is within
    [2 c (1 - e)^t + bias c / e] of its mean under the target. *)
Definition converges (X : finType) (I : Type) (m : nat) (target : X -> seq X -> R)
  (kern : key -> X -> seq X -> I -> seq I -> prog (seq X * seq I)) (bias : R -> R) (e : R) : Prop :=
  forall keys x0 xs b0 bs f c, size xs = m -> size bs = m -> (forall xs, `|f xs| <= c) ->
    `|E (after (on_pairs kern) keys (x0 :: xs, b0 :: bs)) (fun s => f s.1) - path_mean m target f|
    <= 2%:R * c * (1 - e) ^+ size keys + bias c / e.

(** Average of [f] along a sequence. *)
Definition average (A : Type) (f : A -> R) (l : seq A) : R := (\sum_(x <- l) f x) / (size l)%:R.

(** From every start, the mean square of the difference between the average of [f] along every [k]-th visited
    trajectory and its mean under the target is at most a constant over the number of trajectories kept, plus a bias. *)
Definition averages (X : finType) (I : Type) (m : nat) (target : X -> seq X -> R)
  (kern : key -> X -> seq X -> I -> seq I -> prog (seq X * seq I)) (bias : R -> R) (e : R) : Prop :=
  forall keys k x0 xs b0 bs f c, size xs = m -> size bs = m -> (forall xs, `|f xs| <= c) ->
    (0 < k)%N -> (0 < size keys)%N ->
    E (visited (on_pairs kern) keys (x0 :: xs, b0 :: bs))
      (fun l => (average f (thinned [::] k [seq s.1 | s <- l]) - path_mean m target f) ^+ 2)
    <= 4%:R * c ^+ 2 * (1 + 2%:R / e) / ((size keys + k.-1) %/ k)%:R + 4%:R * c * (bias c / e).

(** The chain settles: lengths do not change, means of non-negative functions are non-negative and, at some
    positive rate, both of the above. *)
Definition settles (X : finType) (I : Type) (m : nat) (target : X -> seq X -> R)
  (kern : key -> X -> seq X -> I -> seq I -> prog (seq X * seq I)) (bias : R -> R) : Prop :=
  (forall key x0 xs b0 bs, size xs = m -> size bs = m ->
     always (fun r => size r.1 = m.+1 /\ size r.2 = m.+1) (kern key x0 xs b0 bs))
  /\ (forall keys x0 xs b0 bs F, size xs = m -> size bs = m -> (forall l, 0 <= F l) ->
     0 <= E (visited (on_pairs kern) keys (x0 :: xs, b0 :: bs)) (fun l => F [seq s.1 | s <- l]))
  /\ exists2 e, 0 < e <= 1 & converges m target kern bias e /\ averages m target kern bias e.

(** The chain forgets where it started: after [t] calls, whatever the two starts, the two sequences of keys and the
    two sequences of indices, means of a function of the trajectory bounded by [c] differ by at most
    2 c (1 - e)^t. *)
Definition forgets_start (X : finType) (I : Type) (m : nat)
  (kern : key -> X -> seq X -> I -> seq I -> prog (seq X * seq I)) : Prop :=
  exists2 e, 0 < e <= 1 & forall keys keys' x0 xs b0 bs y0 ys c0 cs f c, size keys = size keys' ->
    size xs = m -> size bs = m -> size ys = m -> size cs = m -> (forall zs, `|f zs| <= c) ->
    `|E (after (on_pairs kern) keys (x0 :: xs, b0 :: bs)) (fun s => f s.1)
      - E (after (on_pairs kern) keys' (y0 :: ys, c0 :: cs)) (fun s => f s.1)|
    <= 2%:R * c * (1 - e) ^+ size keys.

(** The same kernel when the indices are stored in an array of length [T]. *)
Definition indexed (X I : Type) (T : nat) (kern : key -> X -> seq X -> I -> seq I -> prog (seq X * seq I))
  (k : key) (s : seq X * ('I_T -> I)) : prog (seq X * ('I_T -> I)) :=
  do r <- on_pairs kern k (s.1, [seq s.2 t | t <- enum 'I_T]);
  Ret (r.1, fun t => nth (s.2 t) r.2 t).
