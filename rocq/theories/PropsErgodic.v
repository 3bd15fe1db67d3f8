(** * Property theorems C60-C62: the long run of csmc.py, rw_csmc.py, l_csmc_f.py, al_csmc_f.py and of the sampling
    loop of mcmc_utils.py.  Statements only; the proofs are in the Ergodic* and ShiftTheory files.

    States range over a finite set ([X] finite, as in C10 and C17-C20); there is at least one particle besides the
    reference.  [settles] (ErgodicSpec.v) says that, from every start, the law of the trajectory after [t] calls
    converges geometrically to the target, and that averages along the chain converge in mean square. *)
From Coq Require Import Reals.
From mathcomp Require Import all_ssreflect all_algebra.
From Verif Require Import RInst Prog Resampling Spec Csmc CsmcInvariance CsmcSpecs AuxCsmc AuxFinal Drivers.
From Verif Require Import ErgodicSpec ErgodicFinal.

Set Implicit Arguments.
Unset Strict Implicit.
Unset Printing Implicit Defensive.
Import GRing.Theory Num.Theory Order.TTheory.
Local Open Scope ring_scope.

(** The resampling schemes and moves of the code meet the contracts used below. *)
Theorem C60_C61_contracts n' :
  [/\ mixing_resampler (@multinomial n'.+1), mixing_resampler (@killing n'),
      mixing_mover (@barker_move n'.+1) & mixing_mover (@force_move n'.+1)].
Proof. exact: mixing_contracts. Qed.
Print Assumptions C60_C61_contracts.

(** ** C60 *)
(** The law of the returned trajectory depends neither on the indices of the reference nor on the key. *)
Theorem C60_csmc_indices (X : finType) (n' : nat) (P Q : Type) (md : model X n' P Q)
    (mu0 : X -> R) (mut : X -> P -> X -> R) (rs : resampler n'.+1) (mv : mover n'.+1) ps qs (backward : bool)
    (key key' : key) x0 xs b0 bs b0' bs' (f : seq X -> R) :
  markov_model md mu0 mut -> mixing_resampler rs -> mixing_mover mv -> size ps = size qs ->
  size xs = size qs -> size bs = size qs -> size bs' = size qs ->
  E (drop_weights (kernel rs mv md key x0 xs b0 bs ps qs backward true)) (fun r => f r.1)
  = E (drop_weights (kernel rs mv md key' x0 xs b0' bs' ps qs backward true)) (fun r => f r.1).
Proof. exact: csmc_indices. Qed.
Print Assumptions C60_csmc_indices.

Theorem C60_rw_indices (X : finZmodType) (n' : nat) (Q setting : Type) (noise : setting -> X -> R)
    (rs : resampler n'.+1) (mv : mover n'.+1) (G0 : X -> R) (Gt : X -> X -> Q -> R)
    (s0 : setting) ss qs (backward : bool) (key key' : key) x0 xs b0 bs b0' bs' (f : seq X -> R) :
  (forall s, prob_vec (noise s)) -> mixing_resampler rs -> mixing_mover mv -> size ss = size qs ->
  size xs = size qs -> size bs = size qs -> size bs' = size qs ->
  E (drop_weights (rw_kernel noise rs mv G0 Gt xpredT key x0 xs b0 bs s0 ss qs backward)) (fun r => f r.1)
  = E (drop_weights (rw_kernel noise rs mv G0 Gt xpredT key' x0 xs b0' bs' s0 ss qs backward)) (fun r => f r.1).
Proof. by move=> *; apply: rw_indices. Qed.
Print Assumptions C60_rw_indices.

(** Rotating the particles does not change the correction (the code computes it from the mean and the sum of
    squares of the particles, see C21). *)
Theorem C60_l_indices (X : finZmodType) (n' : nat) (Q setting : Type) (noise : setting -> X -> R)
    (scale : setting -> X -> X) (logH : setting -> {ffun 'I_n'.+1 -> X} -> X -> X -> R)
    (rs : resampler n'.+1) (mv : mover n'.+1) (G0 : X -> R) (Gt : X -> X -> Q -> R)
    (g0 : X -> X) (gt : X -> X -> Q -> X)
    (s0 : setting) ss qs (backward : bool) (key key' : key) x0 xs b0 bs b0' bs' (f : seq X -> R) :
  (forall s, prob_vec (noise s)) -> (forall s x a phi y, logH s (moved a x) phi y = logH s x phi y) ->
  mixing_resampler rs -> mixing_mover mv -> size ss = size qs ->
  size xs = size qs -> size bs = size qs -> size bs' = size qs ->
  E (drop_weights (l_kernel noise scale logH rs mv G0 Gt g0 gt key x0 xs b0 bs s0 ss qs backward)) (fun r => f r.1)
  = E (drop_weights (l_kernel noise scale logH rs mv G0 Gt g0 gt key' x0 xs b0' bs' s0 ss qs backward)) (fun r => f r.1).
Proof. by move=> *; apply: l_indices. Qed.
Print Assumptions C60_l_indices.

Theorem C60_al_indices (X : finZmodType) (n' : nat) (Q setting : Type) (noise ld : setting -> X -> R)
    (scale : setting -> X -> X) (rs : resampler n'.+1) (mv : mover n'.+1) (G0 : X -> R) (Gt : X -> X -> Q -> R)
    (g0 : X -> X) (gt : X -> X -> Q -> X)
    (s0 : setting) ss qs (backward : bool) (key key' : key) x0 xs b0 bs b0' bs' (f : seq X -> R) :
  (forall s, prob_vec (noise s)) -> mixing_resampler rs -> mixing_mover mv -> size ss = size qs ->
  size xs = size qs -> size bs = size qs -> size bs' = size qs ->
  E (drop_weights (al_kernel noise ld scale rs mv G0 Gt g0 gt key x0 xs b0 bs s0 ss qs backward)) (fun r => f r.1)
  = E (drop_weights (al_kernel noise ld scale rs mv G0 Gt g0 gt key' x0 xs b0' bs' s0 ss qs backward)) (fun r => f r.1).
Proof. by move=> *; apply: al_indices. Qed.
Print Assumptions C60_al_indices.

(** ** C61 *)
(** Moves that leave the weights invariant ([barker_move]): no bias. *)
Theorem C61_csmc (X : finType) (n' : nat) (P Q : Type) (md : model X n' P Q)
    (mu0 : X -> R) (mut : X -> P -> X -> R) (rs : resampler n'.+1) (mv : mover n'.+1) ps qs (backward : bool) :
  markov_model md mu0 mut -> mixing_resampler rs -> size ps = size qs -> (0 < n')%N -> (0 < #|X|)%N ->
  mixing_mover mv -> good_mover mv ->
  settles (size qs) (path_target (Gamma0 md) (Gammat md) qs)
    (fun key x0 xs b0 bs => drop_weights (kernel rs mv md key x0 xs b0 bs ps qs backward true)) (fun=> 0).
Proof. by move=> mk *; apply: (csmc_settles _ mk). Qed.
Print Assumptions C61_csmc.

Theorem C61_rw (X : finZmodType) (n' : nat) (Q setting : Type) (noise : setting -> X -> R)
    (rs : resampler n'.+1) (mv : mover n'.+1) (G0 : X -> R) (Gt : X -> X -> Q -> R)
    (s0 : setting) ss qs (backward : bool) :
  (forall s, prob_vec (noise s)) -> (forall s z, 0 < noise s z) -> mixing_resampler rs -> size ss = size qs ->
  (0 < n')%N -> mixing_mover mv -> good_mover mv -> (forall s z, noise s (- z) = noise s z) ->
  settles (size qs) (path_target G0 Gt qs) (fun key x0 xs b0 bs =>
    drop_weights (rw_kernel noise rs mv G0 Gt xpredT key x0 xs b0 bs s0 ss qs backward)) (fun=> 0).
Proof. by move=> *; apply: rw_settles. Qed.
Print Assumptions C61_rw.

Theorem C61_l (X : finZmodType) (n' : nat) (Q setting : Type) (noise : setting -> X -> R)
    (scale : setting -> X -> X) (logH : setting -> {ffun 'I_n'.+1 -> X} -> X -> X -> R)
    (rs : resampler n'.+1) (mv : mover n'.+1) (G0 : X -> R) (Gt : X -> X -> Q -> R)
    (g0 : X -> X) (gt : X -> X -> Q -> X) (s0 : setting) ss qs (backward : bool) :
  (forall s, prob_vec (noise s)) -> (forall s z, 0 < noise s z) -> mixing_resampler rs -> size ss = size qs ->
  (0 < n')%N ->
  (forall s, exists S : {ffun 'I_n'.+1 -> X} -> R, forall (x : {ffun 'I_n'.+1 -> X}) b phi,
     \sum_u noise s (u - (x b + phi)) * \prod_(i | i != b) noise s (x i - u)
     = S x * exp (logH s x phi (x b))) ->
  (forall s x a phi y, logH s (moved a x) phi y = logH s x phi y) -> mixing_mover mv -> good_mover mv ->
  settles (size qs) (path_target G0 Gt qs) (fun key x0 xs b0 bs =>
    drop_weights (l_kernel noise scale logH rs mv G0 Gt g0 gt key x0 xs b0 bs s0 ss qs backward)) (fun=> 0).
Proof. by move=> *; apply: l_settles. Qed.
Print Assumptions C61_l.

Theorem C61_al (X : finZmodType) (n' : nat) (Q setting : Type) (noise ld : setting -> X -> R)
    (scale : setting -> X -> X) (rs : resampler n'.+1) (mv : mover n'.+1) (G0 : X -> R) (Gt : X -> X -> Q -> R)
    (g0 : X -> X) (gt : X -> X -> Q -> X) (s0 : setting) ss qs (backward : bool) :
  (forall s, prob_vec (noise s)) -> (forall s z, 0 < noise s z) -> mixing_resampler rs -> size ss = size qs ->
  (0 < n')%N -> (forall s, exists c, c != 0 /\ forall z, exp (ld s z) = c * noise s z) ->
  mixing_mover mv -> good_mover mv ->
  settles (size qs) (path_target G0 Gt qs) (fun key x0 xs b0 bs =>
    drop_weights (al_kernel noise ld scale rs mv G0 Gt g0 gt key x0 xs b0 bs s0 ss qs backward)) (fun=> 0).
Proof. by move=> *; apply: al_settles. Qed.
Print Assumptions C61_al.

(** The forced move of the code: the bias left by its threshold. *)
Theorem C61_csmc_force (X : finType) (n' : nat) (P Q : Type) (md : model X n' P Q)
    (mu0 : X -> R) (mut : X -> P -> X -> R) (rs : resampler n'.+1) ps qs (backward : bool) :
  markov_model md mu0 mut -> mixing_resampler rs -> size ps = size qs -> (0 < n')%N -> (0 < #|X|)%N ->
  settles (size qs) (path_target (Gamma0 md) (Gammat md) qs)
    (fun key x0 xs b0 bs => drop_weights (kernel rs (@force_move _) md key x0 xs b0 bs ps qs backward true))
    (force_eps n'.+1).
Proof. by move=> mk *; apply: (csmc_settles_force _ mk). Qed.
Print Assumptions C61_csmc_force.

Theorem C61_rw_force (X : finZmodType) (n' : nat) (Q setting : Type) (noise : setting -> X -> R)
    (rs : resampler n'.+1) (G0 : X -> R) (Gt : X -> X -> Q -> R) (s0 : setting) ss qs (backward : bool) :
  (forall s, prob_vec (noise s)) -> (forall s z, 0 < noise s z) -> mixing_resampler rs -> size ss = size qs ->
  (0 < n')%N -> (forall s z, noise s (- z) = noise s z) ->
  settles (size qs) (path_target G0 Gt qs) (fun key x0 xs b0 bs =>
    drop_weights (rw_kernel noise rs (@force_move _) G0 Gt xpredT key x0 xs b0 bs s0 ss qs backward))
    (force_eps n'.+1).
Proof. by move=> *; apply: rw_settles_force. Qed.
Print Assumptions C61_rw_force.

Theorem C61_l_force (X : finZmodType) (n' : nat) (Q setting : Type) (noise : setting -> X -> R)
    (scale : setting -> X -> X) (logH : setting -> {ffun 'I_n'.+1 -> X} -> X -> X -> R)
    (rs : resampler n'.+1) (G0 : X -> R) (Gt : X -> X -> Q -> R)
    (g0 : X -> X) (gt : X -> X -> Q -> X) (s0 : setting) ss qs (backward : bool) :
  (forall s, prob_vec (noise s)) -> (forall s z, 0 < noise s z) -> mixing_resampler rs -> size ss = size qs ->
  (0 < n')%N ->
  (forall s, exists S : {ffun 'I_n'.+1 -> X} -> R, forall (x : {ffun 'I_n'.+1 -> X}) b phi,
     \sum_u noise s (u - (x b + phi)) * \prod_(i | i != b) noise s (x i - u)
     = S x * exp (logH s x phi (x b))) ->
  (forall s x a phi y, logH s (moved a x) phi y = logH s x phi y) ->
  settles (size qs) (path_target G0 Gt qs) (fun key x0 xs b0 bs =>
    drop_weights (l_kernel noise scale logH rs (@force_move _) G0 Gt g0 gt key x0 xs b0 bs s0 ss qs backward))
    (force_eps n'.+1).
Proof. by move=> *; apply: l_settles_force. Qed.
Print Assumptions C61_l_force.

Theorem C61_al_force (X : finZmodType) (n' : nat) (Q setting : Type) (noise ld : setting -> X -> R)
    (scale : setting -> X -> X) (rs : resampler n'.+1) (G0 : X -> R) (Gt : X -> X -> Q -> R)
    (g0 : X -> X) (gt : X -> X -> Q -> X) (s0 : setting) ss qs (backward : bool) :
  (forall s, prob_vec (noise s)) -> (forall s z, 0 < noise s z) -> mixing_resampler rs -> size ss = size qs ->
  (0 < n')%N -> (forall s, exists c, c != 0 /\ forall z, exp (ld s z) = c * noise s z) ->
  settles (size qs) (path_target G0 Gt qs) (fun key x0 xs b0 bs =>
    drop_weights (al_kernel noise ld scale rs (@force_move _) G0 Gt g0 gt key x0 xs b0 bs s0 ss qs backward))
    (force_eps n'.+1).
Proof. by move=> *; apply: al_settles_force. Qed.
Print Assumptions C61_al_force.

(** Non-vacuity: the two-state model with uniform proposals, and any law on a finite group. *)
Example ex_settles n' G0 Gt (qs : seq unit) : (0 < n')%N ->
  settles (size qs) (path_target G0 Gt qs)
    (fun key x0 xs b0 bs =>
       drop_weights (kernel (@killing n') (@barker_move _) (ex_model n' G0 Gt) key x0 xs b0 bs qs qs false true)) (fun=> 0).
Proof. exact: ex_csmc_settles. Qed.
Example ex_settles_hypotheses (X : finZmodType) (n' : nat) (setting : Type) (ld : setting -> X -> R) (s : setting) :
  [/\ forall z, 0 < ex_noise ld s z, good_mover (@barker_move n'.+1)
    & forall (x : {ffun 'I_n'.+1 -> X}) a phi y, ex_logH ld s (moved a x) phi y = ex_logH ld s x phi y].
Proof. exact: ex_settles_ok. Qed.

(** One particle only: the reference is always returned, whatever the start; the hypothesis [0 < n'] is needed. *)
Theorem C61_one_particle_refuted :
  ~ forall (X : finType) (md : model X 0 unit unit) (mu0 : X -> R) (mut : X -> unit -> X -> R),
    markov_model md mu0 mut ->
    settles 0 (path_target (Gamma0 md) (Gammat md) [::])
      (fun key x0 xs b0 bs => drop_weights (kernel (@multinomial 1) (@barker_move 1) md key x0 xs b0 bs [::] [::] false true))
      (fun=> 0).
Proof. exact: one_particle. Qed.
Print Assumptions C61_one_particle_refuted.

(** ** C62 *)
(** What the sampling loop returns: averages of the recorded trajectories, and the last state. *)
Theorem C62_recorded_averages (X : finType) (I : eqType) (m : nat) (target : X -> seq X -> R) (bias : R -> R)
    (kern : key -> X -> seq X -> I -> seq I -> prog (seq X * seq I)) :
  settles m target kern bias ->
  exists2 e, 0 < e <= 1 &
  forall key x0 xs (B : 'I_m.+1 -> I) n k f c, size xs = m -> (0 < k)%N -> (0 < n)%N -> (forall xs, `|f xs| <= c) ->
    E (mcmc_sampling (indexed kern) key (x0 :: xs, B) n k)
      (fun out => if out is inl r then (average f r.1 - path_mean m target f) ^+ 2 else 0)
    <= 4%:R * c ^+ 2 * (1 + 2%:R / e) / ((n + k.-1) %/ k)%:R + 4%:R * c * (bias c / e).
Proof. exact: loop_averages. Qed.
Print Assumptions C62_recorded_averages.

Theorem C62_last_state (X : finType) (I : eqType) (m : nat) (target : X -> seq X -> R) (bias : R -> R)
    (kern : key -> X -> seq X -> I -> seq I -> prog (seq X * seq I)) :
  settles m target kern bias ->
  exists2 e, 0 < e <= 1 &
  forall key x0 xs (B : 'I_m.+1 -> I) n f c, size xs = m -> (forall xs, `|f xs| <= c) ->
    `|E (mcmc_sampling (indexed kern) key (x0 :: xs, B) n 0)
        (fun out => if out is inr s then f s.1 else 0) - path_mean m target f|
    <= 2%:R * c * (1 - e) ^+ n + bias c / e.
Proof. exact: loop_last. Qed.
Print Assumptions C62_last_state.

(** Chebyshev: the probability that the recorded average of an exact kernel is off by [h] vanishes. *)
Theorem C62_consistent (X : finType) (I : eqType) (m : nat) (target : X -> seq X -> R)
    (kern : key -> X -> seq X -> I -> seq I -> prog (seq X * seq I)) (f : seq X -> R) (c h eps : R) :
  settles m target kern (fun=> 0) -> (forall xs, `|f xs| <= c) -> 0 < h -> 0 < eps ->
  exists N, forall key x0 xs (B : 'I_m.+1 -> I) n k, size xs = m -> (0 < k)%N -> (N * k <= n)%N ->
    Pr (mcmc_sampling (indexed kern) key (x0 :: xs, B) n k)
       (fun out => if out is inl r then h <= `|average f r.1 - path_mean m target f| else false) <= eps.
Proof. exact: loop_consistent. Qed.
Print Assumptions C62_consistent.
