(** * Property theorems C70, C71: the long run of mala.py, tp.py, imh.py and of the sampling loop of tp.py.  Statements
    only; the proofs are in ErgodicSingle.v.

    States range over a finite group ([X] finite for imh.py).  [settles_position], [forgets_position] and [regrouped]
    are defined in ErgodicSingleSpec.v; the contracts of the moves are met by those of the code (C60_C61_contracts,
    [ex_moves] below).  The starts are the states returned by [init]. *)
From Coq Require Import Reals.
From mathcomp Require Import all_ssreflect all_algebra.
From Verif Require Import RInst Prog Resampling Spec CsmcInvariance CsmcSpecs Single SingleSpec Drivers.
From Verif Require Import ErgodicSpec ErgodicFinal ErgodicSingleSpec ErgodicSingle.

Set Implicit Arguments.
Unset Strict Implicit.
Unset Printing Implicit Defensive.
Import GRing.Theory Num.Theory Order.TTheory.
Local Open Scope ring_scope.

(** ** C70 *)
(** Whatever the target, the corrections and the log-densities in the weights, right or wrong. *)
Theorem C70_mala_forgets (X : finZmodType) (N : nat) (log_pdf : X -> R) (grad : X -> X) (noise ld : X -> R)
    (scale : X -> X) (log_H : {ffun 'I_N.+1 -> X} -> X -> X -> R) (mv : mover N.+1) (aux : bool) :
  (0 < N)%N -> prob_vec noise -> (forall z, 0 < noise z) -> mixing_mover mv ->
  forgets_position (fun x => (log_pdf x, grad x))
    (regrouped (fun key => mala_kernel log_pdf grad noise ld scale log_H mv key aux)).
Proof. by move=> *; apply: mala_forgets. Qed.
Print Assumptions C70_mala_forgets.

Theorem C70_tp_forgets (X : finZmodType) (N : nat) (log_pdf : X -> R) (grad : X -> X) (noise : X -> R) (scale : X -> X)
    (corr : X -> X -> X -> R) post_sampling (post : X -> X -> R) (mv : mover N.+1) :
  (0 < N)%N -> prob_vec noise -> (forall z, 0 < noise z) -> (forall u z, 0 < post u z) ->
  (forall key u, samples_indep (post_sampling key u) (fun _ => post u)) -> mixing_mover mv ->
  forgets_position (fun x => (log_pdf x, grad x)) (regrouped (tp1_kernel log_pdf grad noise scale mv corr post_sampling)).
Proof. by move=> h1 h2 h3 h4 h5 h6; apply: (@tp_forgets1 X N log_pdf grad noise scale corr post_sampling post). Qed.
Print Assumptions C70_tp_forgets.

Theorem C70_imh_forgets (X : finType) (N : nat) (log_pdf : X -> R) prior_sampling (prior : X -> R) (mv : mover N.+1) :
  (0 < N)%N -> (forall x, 0 < prior x) -> (forall key, samples_indep (prior_sampling key) (fun _ => prior)) ->
  mixing_mover mv -> forgets_position log_pdf (imh_kernel log_pdf prior_sampling mv).
Proof. by move=> h1 h2 h3 h4; apply: (@imh_forgets1 X N log_pdf prior_sampling prior). Qed.
Print Assumptions C70_imh_forgets.

(** Convergence to the target for a move that meets its contract (Barker); for [force_move], which the code uses, up
    to the error left by its threshold. *)
Theorem C70_mala (X : finZmodType) (N : nat) (log_pdf : X -> R) (grad : X -> X) (noise ld : X -> R)
    (scale : X -> X) (log_H : {ffun 'I_N.+1 -> X} -> X -> X -> R) (mv : mover N.+1) (aux : bool) :
  (0 < N)%N -> prob_vec noise -> (forall z, 0 < noise z) ->
  (if aux then (forall z, noise (- z) = noise z) /\ exists c, c != 0 /\ forall z, exp (ld z) = c * noise z
   else exists S : {ffun 'I_N.+1 -> X} -> R, forall (x : {ffun 'I_N.+1 -> X}) b phi,
     \sum_u noise (u - (x b + phi)) * \prod_(i | i != b) noise (x i - u) = S x * exp (log_H x (x b) phi)) ->
  mixing_mover mv -> relabels mv -> good_mover mv ->
  settles_position (fun x => (log_pdf x, grad x))
    (regrouped (fun key => mala_kernel log_pdf grad noise ld scale log_H mv key aux))
    (fun x => exp (log_pdf x)) (fun=> 0).
Proof. by move=> h1 h2 h3 h4 h5 h6 h7; apply: mala_settles. Qed.
Print Assumptions C70_mala.

Theorem C70_mala_force (X : finZmodType) (N : nat) (log_pdf : X -> R) (grad : X -> X) (noise ld : X -> R)
    (scale : X -> X) (log_H : {ffun 'I_N.+1 -> X} -> X -> X -> R) (aux : bool) :
  (0 < N)%N -> prob_vec noise -> (forall z, 0 < noise z) ->
  (if aux then (forall z, noise (- z) = noise z) /\ exists c, c != 0 /\ forall z, exp (ld z) = c * noise z
   else exists S : {ffun 'I_N.+1 -> X} -> R, forall (x : {ffun 'I_N.+1 -> X}) b phi,
     \sum_u noise (u - (x b + phi)) * \prod_(i | i != b) noise (x i - u) = S x * exp (log_H x (x b) phi)) ->
  settles_position (fun x => (log_pdf x, grad x))
    (regrouped (fun key => mala_kernel log_pdf grad noise ld scale log_H (@force_move N.+1) key aux))
    (fun x => exp (log_pdf x)) (force_eps N.+1).
Proof. by move=> h1 h2 h3 h4; apply: mala_settles_force. Qed.
Print Assumptions C70_mala_force.

Theorem C70_tp (X : finZmodType) (N : nat) (log_pdf : X -> R) (grad : X -> X) (noise : X -> R) (scale : X -> X)
    (corr : X -> X -> X -> R) post_sampling (prior : X -> R) (post : X -> X -> R) (mv : mover N.+1) :
  (0 < N)%N -> prob_vec noise -> (forall z, 0 < noise z) -> (forall u z, 0 < post u z) -> (forall x, 0 < prior x) ->
  (forall key u, samples_indep (post_sampling key u) (fun _ => post u)) ->
  (forall u, exists Z, forall x, prior x * noise (u - x) = Z * post u x) ->
  (forall u x g, noise (u - x) * exp (corr u x g) = noise (u - (x + scale g))) ->
  mixing_mover mv -> relabels mv -> good_mover mv ->
  settles_position (fun x => (log_pdf x, grad x)) (regrouped (tp1_kernel log_pdf grad noise scale mv corr post_sampling))
    (fun x => prior x * exp (log_pdf x)) (fun=> 0).
Proof.
by move=> h1 h2 h3 h4 h5 h6 h7 h8 h9 h10 h11; apply: (@tp_settles1 X N log_pdf grad noise scale corr post_sampling prior post).
Qed.
Print Assumptions C70_tp.

Theorem C70_tp_force (X : finZmodType) (N : nat) (log_pdf : X -> R) (grad : X -> X) (noise : X -> R) (scale : X -> X)
    (corr : X -> X -> X -> R) post_sampling (prior : X -> R) (post : X -> X -> R) :
  (0 < N)%N -> prob_vec noise -> (forall z, 0 < noise z) -> (forall u z, 0 < post u z) -> (forall x, 0 < prior x) ->
  (forall key u, samples_indep (post_sampling key u) (fun _ => post u)) ->
  (forall u, exists Z, forall x, prior x * noise (u - x) = Z * post u x) ->
  (forall u x g, noise (u - x) * exp (corr u x g) = noise (u - (x + scale g))) ->
  settles_position (fun x => (log_pdf x, grad x))
    (regrouped (tp1_kernel log_pdf grad noise scale (@force_move N.+1) corr post_sampling))
    (fun x => prior x * exp (log_pdf x)) (force_eps N.+1).
Proof.
by move=> h1 h2 h3 h4 h5 h6 h7 h8; apply: (@tp_settles_force1 X N log_pdf grad noise scale corr post_sampling prior post).
Qed.
Print Assumptions C70_tp_force.

Theorem C70_imh (X : finType) (N : nat) (log_pdf : X -> R) prior_sampling (prior : X -> R) (mv : mover N.+1) :
  (0 < N)%N -> (forall x, 0 < prior x) -> (forall key, samples_indep (prior_sampling key) (fun _ => prior)) ->
  mixing_mover mv -> relabels mv -> good_mover mv ->
  settles_position log_pdf (imh_kernel log_pdf prior_sampling mv) (fun x => prior x * exp (log_pdf x)) (fun=> 0).
Proof. by move=> *; apply: imh_settles1. Qed.
Print Assumptions C70_imh.

Theorem C70_imh_force (X : finType) (N : nat) (log_pdf : X -> R) prior_sampling (prior : X -> R) :
  (0 < N)%N -> (forall x, 0 < prior x) -> (forall key, samples_indep (prior_sampling key) (fun _ => prior)) ->
  settles_position log_pdf (imh_kernel log_pdf prior_sampling (@force_move N.+1))
    (fun x => prior x * exp (log_pdf x)) (force_eps N.+1).
Proof. by move=> *; apply: imh_settles_force1. Qed.
Print Assumptions C70_imh_force.

(** Non-vacuity: Barker's move meets the three contracts. *)
Example ex_moves N :
  [/\ relabels (@barker_move N.+1), good_mover (@barker_move N.+1) & mixing_mover (@barker_move N.+1)].
Proof. exact: code_movers. Qed.

(** ** C71 *)
(** What the sampling loop of tp.py returns: averages of the recorded positions, and the last position. *)
Theorem C71_recorded_averages (X : finType) (C : Type) (cached : X -> C) (K : key -> X * C -> prog (X * C * bool))
    (target : X -> R) (bias : R -> R) : settles_position cached K target bias ->
  exists2 e, 0 < e <= 1 &
  forall key x n k (f : X -> R) c, (0 < k)%N -> (0 < n)%N -> (forall z, `|f z| <= c) ->
    E (tp_sampling K key (x, cached x) n k)
      (fun out => if out is inl r then (average f r.1 - mean_under target f) ^+ 2 else 0)
    <= 4%:R * c ^+ 2 * (1 + 2%:R / e) / ((n + k.-1) %/ k)%:R + 4%:R * c * (bias c / e).
Proof. exact: tp_loop_averages. Qed.
Print Assumptions C71_recorded_averages.

Theorem C71_last_state (X : finType) (C : Type) (cached : X -> C) (K : key -> X * C -> prog (X * C * bool))
    (target : X -> R) (bias : R -> R) : settles_position cached K target bias ->
  exists2 e, 0 < e <= 1 &
  forall key x n (f : X -> R) c, (forall z, `|f z| <= c) ->
    `|E (tp_sampling K key (x, cached x) n 0) (fun out => if out is inr r then f r.1 else 0) - mean_under target f|
    <= 2%:R * c * (1 - e) ^+ n + bias c / e.
Proof. exact: tp_loop_last. Qed.
Print Assumptions C71_last_state.
