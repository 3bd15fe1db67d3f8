(** * Resampling: model of /repo/gradient_csmc/utils/resamplings.py and
    /repo/gradient_csmc/utils/common.py. *)
From Coq Require Import Reals.
From mathcomp Require Import all_ssreflect all_algebra.
From Verif Require Import RInst Prog.

Set Implicit Arguments.
Unset Strict Implicit.
Unset Printing Implicit Defensive.
Import GRing.Theory Num.Theory Order.TTheory.
Local Open Scope ring_scope.

(** ** Array primitives used by the modelled files *)

(** [x.at[b].set(v)] (e.g. gradient_csmc/csmc.py:129,151, utils/resamplings.py:35,77,79,83,
    utils/common.py:35).  Indices are ordinals, so JAX's silent clipping of
    out-of-range indices cannot occur. *)
Definition upd (n : nat) (Y : Type) (f : {ffun 'I_n -> Y}) (b : 'I_n) (v : Y) : {ffun 'I_n -> Y} :=
  [ffun i => if i == b then v else f i].

(** Same, for arrays of reals, modelled as plain functions. *)
Definition updR (n : nat) (f : 'I_n -> R) (b : 'I_n) (v : R) : 'I_n -> R :=
  fun i => if i == b then v else f i.

(** [jnp.take(x, A, axis=0)] (gradient_csmc/csmc.py:146). *)
Definition take_ax (n : nat) (Y : Type) (x : {ffun 'I_n -> Y}) (A : {ffun 'I_n -> 'I_n})
  : {ffun 'I_n -> Y} := [ffun i => x (A i)].

(** [jnp.roll(idx, s)] (utils/resamplings.py:82) on an array of length [n'.+1]:
    entry [i] of the result is entry [(i - s) mod N] of the input.  Ordinals
    of type ['I_n'.+1] form a group modulo [n'.+1] in mathcomp. *)
Definition roll (n' : nat) (Y : Type) (x : {ffun 'I_n'.+1 -> Y}) (s : 'I_n'.+1)
  : {ffun 'I_n'.+1 -> Y} := [ffun i => x (i - s)].

(** [weights.max()] (utils/resamplings.py:66); the array is non-empty. *)
Definition amax (n' : nat) (w : 'I_n'.+1 -> R) : R := \big[Num.max/w ord0]_i w i.

(** [jnp.clip(x, lo, hi)] (utils/common.py:47). *)
Definition clip (x lo hi : R) : R := Num.min (Num.max x lo) hi.

(** ** Random primitives *)

(** Law of [jax.random.choice(key, N, p=p)]: JAX draws from the cumulative sum
    of [p] scaled by its total, i.e. from [p / sum(p)].  The total is assumed to
    be non-zero whenever this is used (otherwise the mass function is zero and
    no statement below applies). *)
Definition cat_law (n : nat) (p : 'I_n -> R) : 'I_n -> R := fun i => p i / \sum_j p j.

(** [jax.random.choice(key, N, p=p, shape=())]. *)
Definition choice (k : key) (n : nat) (p : 'I_n -> R) : prog 'I_n := draw k (cat_law p).

(** [jax.random.choice(key, N, p=p, shape=(N,), replace=True)]: independent entries. *)
Definition choices (k : key) (n : nat) (p : 'I_n -> R) : prog {ffun 'I_n -> 'I_n} :=
  draw k (fun A : {ffun 'I_n -> 'I_n} => \prod_i cat_law p (A i)).

(** Probability that [u * a < b] for [u] uniform on [0, 1). *)
Definition prob_lt (a b : R) : R :=
  if 0 < a then clip (b / a) 0 1
  else if a == 0 then (if 0 < b then 1 else 0)
  else 1 - clip (b / a) 0 1.

(** [jax.random.uniform(key) * a < b], as the Bernoulli draw of this event. *)
Definition unif_lt (k : key) (a b : R) : prog bool :=
  draw k (fun e : bool => if e then prob_lt a b else 1 - prob_lt a b).

(** [jax.random.uniform(key, (N,)) * a >= w]: independent events, entry [i] has
    probability [1 - P(u * a < w_i)]. *)
Definition unifs_ge (k : key) (n : nat) (a : R) (w : 'I_n -> R) : prog {ffun 'I_n -> bool} :=
  draw k (fun e : {ffun 'I_n -> bool} =>
    \prod_i (if e i then 1 - prob_lt a (w i) else prob_lt a (w i))).

(** ** utils/resamplings.py *)

(** [jax.scipy.special.logsumexp] on finite entries. *)
Definition logsumexp (n : nat) (lw : 'I_n -> R) : R := ln (\sum_i exp (lw i)).

(** utils/resamplings.py:88-108, [normalize(log_weights, log_space=True)]. *)
Definition normalize_log (n : nat) (lw : 'I_n -> R) : 'I_n -> R :=
  fun i => lw i - logsumexp lw.

(** utils/resamplings.py:88-108, [normalize(log_weights)]. *)
Definition normalize (n : nat) (lw : 'I_n -> R) : 'I_n -> R :=
  fun i => exp (normalize_log lw i).

(** Type of resampling functions ([resampling_func] of csmc.kernel). *)
Definition resampler (n : nat) :=
  key -> ('I_n -> R) -> 'I_n -> 'I_n -> bool -> prog {ffun 'I_n -> 'I_n}.

(** utils/resamplings.py:12-36. *)
Definition multinomial (n : nat) : resampler n :=
  fun key weights i j conditional =>
    do indices <- choices key weights;
    Ret (if conditional then upd indices j i else indices).

(** utils/resamplings.py:76-79, the law of the rotation. *)
Definition killing_J_prob (n' : nat) (weights : 'I_n'.+1 -> R) (i : 'I_n'.+1) : 'I_n'.+1 -> R :=
  let w_max := amax weights in
  let J_prob := fun l => (1 - weights l / w_max) / (n'.+1)%:R in
  let J_prob := updR J_prob i 0 in
  let J_prob_i := Num.max (1 - \sum_l J_prob l) 0 in
  updR J_prob i J_prob_i.

(** utils/resamplings.py:62-71, unconditional part. *)
Definition killing_idx (n' : nat) (key_1 key_2 : key) (weights : 'I_n'.+1 -> R)
  : prog {ffun 'I_n'.+1 -> 'I_n'.+1} :=
  do killed <- unifs_ge key_1 (amax weights) weights;
  do repl <- choices key_2 weights;
  Ret [ffun l => if ~~ killed l then l else repl l].

(** utils/resamplings.py:39-85. *)
Definition killing (n' : nat) : resampler n'.+1 :=
  fun key weights i j conditional =>
    let key_1 := split key 0 in let key_2 := split key 1 in let key_3 := split key 2 in
    do idx <- killing_idx key_1 key_2 weights;
    if ~~ conditional then Ret idx else
    do J <- choice key_3 (killing_J_prob weights i);
    Ret (upd (roll idx (j - J)) j i).

(** ** utils/common.py *)

(** Type of final moves ([ancestor_move_func] of csmc.kernel). *)
Definition mover (n : nat) := key -> ('I_n -> R) -> 'I_n -> prog ('I_n * R).

(** utils/common.py:36, [jnp.maximum(1 - jnp.exp(-M), 1 - 1e-12)]. *)
Definition force_threshold (M : nat) : R :=
  Num.max (1 - exp (- M%:R)) (1 - 1 / IZR 1000000000000).

(** utils/common.py:35-38. *)
Definition force_rest (n : nat) (weights : 'I_n -> R) (k : 'I_n) : 'I_n -> R :=
  let w_k := weights k in
  let temp := 1 - w_k in
  let rest := updR weights k 0 in
  if w_k < force_threshold n then (fun i => rest i / temp) else (fun _ => 1 / n%:R).

(** utils/common.py:44,47, [jnp.clip(jnp.nansum(temp * rest_weights / (1 - weights)), 0, 1)].
    A term with [1 - weights = 0] is NaN when its numerator is 0 (dropped by
    nansum), and infinite otherwise (the clipped sum is then 1). *)
Definition force_alpha (n : nat) (weights : 'I_n -> R) (k : 'I_n) : R :=
  let temp := 1 - weights k in
  let rest := force_rest weights k in
  if [exists i, (1 - weights i == 0) && (0 < temp * rest i)] then 1
  else clip (\sum_(i | 1 - weights i != 0) temp * rest i / (1 - weights i)) 0 1.

(** utils/common.py:8-47. *)
Definition force_move (n : nat) : mover n :=
  fun key weights k =>
    let key_1 := split key 0 in let key_2 := split key 1 in
    let temp := 1 - weights k in
    do i <- choice key_1 (force_rest weights k);
    do accept <- unif_lt key_2 (1 - weights i) temp;
    let alpha := force_alpha weights k in
    Ret ((if accept then i else k), alpha).

(** utils/common.py:50-72. *)
Definition barker_move (n : nat) : mover n :=
  fun key weights k =>
    do i <- choice key weights;
    Ret (i, 1 - weights k).
