(** * Property theorems C74: what lgssm_scaling/experiment.py estimates.  Statements only; the proofs are in EsjdProofs.v
    and EsjdFinal.v.

    [lg_esjd_run] (Esjd.v) is the program of experiment.py:110-159: in each of K repetitions, data, M initial
    trajectories, one step of the kernel from each, squared distance between the two trajectories at each time, mean
    over the M pairs.  [estimates_jump] (EsjdSpec.v): given the data of a repetition, the recorded value at every time is
    an unbiased estimate of the mean squared jump of the kernel under the target, with mean squared error the variance of
    one jump over M.

    States range over a finite set or a finite group; [coord] gives their coordinates. *)
From Coq Require Import Reals.
From mathcomp Require Import all_ssreflect all_algebra.
From Verif Require Import RInst Prog Resampling Spec Csmc CsmcInvariance CsmcSpecs AuxCsmc AuxFinal TpCsmc TpFinal.
From Verif Require Import Experiments ErgodicSpec ErgodicFinal ErgodicTp ProperSpec RunFinal Esjd EsjdSpec EsjdFinal EsjdDraws.

Set Implicit Arguments.
Unset Strict Implicit.
Unset Printing Implicit Defensive.
Import GRing.Theory Num.Theory Order.TTheory.
Local Open Scope ring_scope.

(** ** C74 *)
(** Any kernel whose law does not depend on the key. *)
Theorem C74_estimates (D : Type) (X : finType) (S : Type) (dx m : nat) (coord : X -> 'I_dx -> R) (path : S -> seq X) (x : X)
    (draws : key -> D -> prog (nat -> seq X)) (start : D -> seq X -> S) (kern : D -> key -> S -> prog S)
    (target : D -> X -> seq X -> R) (M : nat) (key0 : key) : (0 < M)%N ->
  (forall key d, pairwise_draws (path_mean m (target d)) M (draws key d)) ->
  (forall key d, always (fun xs => forall i, size (xs i) = m.+1) (draws key d)) ->
  (forall d key xs, size xs = m.+1 -> proper (kern d key (start d xs))) ->
  (forall d xs, path (start d xs) = xs) ->
  (forall d key xs, size xs = m.+1 -> always (fun r => size (path r) = m.+1) (kern d key (start d xs))) ->
  (forall d key key' xs (f : seq X -> R), size xs = m.+1 ->
     E (kern d key (start d xs)) (fun r => f (path r)) = E (kern d key' (start d xs)) (fun r => f (path r))) ->
  estimates_jump m M target coord x (fun d xs => do r <- kern d key0 (start d xs); Ret (path r))
    (fun get_data key K => lg_esjd_run coord path get_data draws start kern key K M).
Proof.
move=> h1 h2 h3 h4 h5 h6 h7.
exact (@esjd_key D X S dx m coord path x draws start kern target M h1 h2 h3 h4 h5 h6 h7 key0).
Qed.
Print Assumptions C74_estimates.

(** What the estimated quantity is: for a kernel that leaves the target invariant, it is the sum over the coordinates of
    twice the variance minus the lag-one autocovariance; it is at most four times the variances. *)
Theorem C74_jump (X : finType) (dx m : nat) (target : X -> seq X -> R) (coord : X -> 'I_dx -> R) (x : X)
    (law : seq X -> prog (seq X)) (t : nat) :
  (forall x0 xs, 0 < target x0 xs) -> (forall xs, size xs = m.+1 -> proper (law xs)) -> path_invariant m target law ->
  jump_mean m target coord x law t
    = \sum_i 2%:R * (variance m target coord x t i - autocovariance m target coord x law t i)
  /\ jump_mean m target coord x law t <= \sum_i 4%:R * variance m target coord x t i.
Proof. by move=> h1 h2 h3; split; [apply: jump_autocovariance | apply: jump_le]. Qed.
Print Assumptions C74_jump.

(** Whatever the kernel, the mean and variance of the jump are bounded by the diameter of the state space and its
    square: the mean squared error of a recorded value is at most [c ^ 2 / M]. *)
Theorem C74_bounds (X : finType) (dx m : nat) (target : X -> seq X -> R) (coord : X -> 'I_dx -> R) (x : X)
    (law : seq X -> prog (seq X)) (t : nat) (c : R) :
  (forall x0 xs, 0 < target x0 xs) -> (forall xs, size xs = m.+1 -> proper (law xs)) ->
  (forall y z, \sum_i (coord y i - coord z i) ^+ 2 <= c) ->
  0 <= jump_mean m target coord x law t <= c /\ 0 <= jump_variance m target coord x law t <= c ^+ 2.
Proof. by move=> *; apply: jump_bounds. Qed.
Print Assumptions C74_bounds.

(** ** The kernels of the code.  [from_zeros m kern key0] is the step of the kernel that starts with indices zero, as in
    [init]; its law does not depend on [key0].  With Barker's move it leaves the target invariant, so that C74_jump
    applies. *)
Section Kernels.
Variables (D : Type) (n' m dx M : nat) (rs : resampler n'.+1) (mv : mover n'.+1) (bias : R -> R) (backward : bool) (key0 : key).
Hypotheses (M0 : (0 < M)%N) (n0 : (0 < n')%N) (mr : mixing_resampler rs) (dr : draws_resampler rs) (fm : final_move mv bias).

Theorem C74_csmc (X : finType) (coord : X -> 'I_dx -> R) (x : X) (draws : key -> D -> prog (nat -> seq X))
    (P Q : Type) (md : D -> model X n' P Q) (mu0 : D -> X -> R) (mut : D -> X -> P -> X -> R) (ps : D -> seq P) (qs : D -> seq Q) :
  (forall d, markov_model (md d) (mu0 d) (mut d)) -> (forall d, size (ps d) = m) -> (forall d, size (qs d) = m) ->
  (forall key d, pairwise_draws (path_mean m (path_target (Gamma0 (md d)) (Gammat (md d)) (qs d))) M (draws key d)) ->
  (forall key d, always (fun xs => forall i, size (xs i) = m.+1) (draws key d)) ->
  let kern d key x0 xs b0 bs := drop_weights (kernel rs mv (md d) key x0 xs b0 bs (ps d) (qs d) backward true) in
  let target d := path_target (Gamma0 (md d)) (Gammat (md d)) (qs d) in
  estimates_jump m M target coord x (fun d => from_zeros m (kern d) key0)
    (fun get_data key K => lg_esjd_run coord fst get_data draws (fun _ xs => (xs, nseq m.+1 ord0)) (fun d => on_pairs (kern d)) key K M)
  /\ (good_mover mv -> forall d, path_invariant m (target d) (from_zeros m (kern d) key0)).
Proof. move=> h1 h2 h3 h4 h5; exact (@csmc_esjd D n' m dx M rs mv bias backward M0 n0 mr dr fm X coord x draws P Q md mu0 mut ps qs h1 h2 h3 h4 h5 key0). Qed.

Section Three.
Variables (X : finZmodType) (coord : X -> 'I_dx -> R) (x : X) (draws : key -> D -> prog (nat -> seq X)).
Variables (Q setting : Type) (noise ld : setting -> X -> R).
Variables (scale : setting -> X -> X) (logH : setting -> {ffun 'I_n'.+1 -> X} -> X -> X -> R).
Variables (G0 : D -> X -> R) (Gt : D -> X -> X -> Q -> R) (g0 : D -> X -> X) (gt : D -> X -> X -> Q -> X) (qs : D -> seq Q).
Variables (s0 : setting) (ss : seq setting).
Hypotheses (szs : size ss = m) (szq : forall d, size (qs d) = m)
  (noiseP : forall s, prob_vec (noise s)) (noise_gt0 : forall s z, 0 < noise s z)
  (h1 : forall key d, pairwise_draws (path_mean m (path_target (G0 d) (Gt d) (qs d))) M (draws key d))
  (h2 : forall key d, always (fun xs => forall i, size (xs i) = m.+1) (draws key d)).

Theorem C74_rw : (forall s z, noise s (- z) = noise s z) ->
  let kern d key x0 xs b0 bs := drop_weights (rw_kernel noise rs mv (G0 d) (Gt d) xpredT key x0 xs b0 bs s0 ss (qs d) backward) in
  let target d := path_target (G0 d) (Gt d) (qs d) in
  estimates_jump m M target coord x (fun d => from_zeros m (kern d) key0)
    (fun get_data key K => lg_esjd_run coord fst get_data draws (fun _ xs => (xs, nseq m.+1 ord0)) (fun d => on_pairs (kern d)) key K M)
  /\ (good_mover mv -> forall d, path_invariant m (target d) (from_zeros m (kern d) key0)).
Proof. move=> h; exact (@rw_esjd D n' m dx M rs mv bias backward M0 n0 mr dr fm X coord x draws Q setting noise G0 Gt qs s0 ss szs szq noiseP noise_gt0 h1 h2 h key0). Qed.

Theorem C74_l :
  (forall s, exists S : {ffun 'I_n'.+1 -> X} -> R, forall (x : {ffun 'I_n'.+1 -> X}) b phi,
     \sum_u noise s (u - (x b + phi)) * \prod_(i | i != b) noise s (x i - u) = S x * exp (logH s x phi (x b))) ->
  (forall s x a phi y, logH s (moved a x) phi y = logH s x phi y) ->
  let kern d key x0 xs b0 bs := drop_weights
     (l_kernel noise scale logH rs mv (G0 d) (Gt d) (g0 d) (gt d) key x0 xs b0 bs s0 ss (qs d) backward) in
  let target d := path_target (G0 d) (Gt d) (qs d) in
  estimates_jump m M target coord x (fun d => from_zeros m (kern d) key0)
    (fun get_data key K => lg_esjd_run coord fst get_data draws (fun _ xs => (xs, nseq m.+1 ord0)) (fun d => on_pairs (kern d)) key K M)
  /\ (good_mover mv -> forall d, path_invariant m (target d) (from_zeros m (kern d) key0)).
Proof. move=> h h'; exact (@l_esjd D n' m dx M rs mv bias backward M0 n0 mr dr fm X coord x draws Q setting noise scale logH G0 Gt g0 gt qs s0 ss szs szq noiseP noise_gt0 h1 h2 h h' key0). Qed.

Theorem C74_al : (forall s, exists c, c != 0 /\ forall z, exp (ld s z) = c * noise s z) ->
  let kern d key x0 xs b0 bs := drop_weights
     (al_kernel noise ld scale rs mv (G0 d) (Gt d) (g0 d) (gt d) key x0 xs b0 bs s0 ss (qs d) backward) in
  let target d := path_target (G0 d) (Gt d) (qs d) in
  estimates_jump m M target coord x (fun d => from_zeros m (kern d) key0)
    (fun get_data key K => lg_esjd_run coord fst get_data draws (fun _ xs => (xs, nseq m.+1 ord0)) (fun d => on_pairs (kern d)) key K M)
  /\ (good_mover mv -> forall d, path_invariant m (target d) (from_zeros m (kern d) key0)).
Proof. move=> h; exact (@al_esjd D n' m dx M rs mv bias backward M0 n0 mr dr fm X coord x draws Q setting noise ld scale G0 Gt g0 gt qs s0 ss szs szq noiseP noise_gt0 h1 h2 h key0). Qed.
End Three.

Theorem C74_tp_csmc (X : finZmodType) (coord : X -> 'I_dx -> R) (x : X) (draws : key -> D -> prog (nat -> seq X)) (Q : Type)
    (noise0 : X -> R) (noise : Q -> X -> R) (scale0 : X -> X) (scale : Q -> X -> X)
    (pnoise0 : X -> R) (pnoise : Q -> X -> R) (mean0 : X -> X) (mean : Q -> X -> X -> X)
    (prior0 : D -> X -> R) (prior : D -> X -> X -> Q -> R) (r0 : D -> X -> R) (rt : D -> X -> X -> Q -> R)
    (g0 : D -> X -> X) (gt : D -> X -> X -> Q -> X) (qs : D -> seq Q)
    (logH0 : {ffun 'I_n'.+1 -> X} -> X -> 'I_n'.+1 -> R)
    (logH : Q -> {ffun 'I_n'.+1 -> X} -> {ffun 'I_n'.+1 -> X} -> X -> 'I_n'.+1 -> R) :
  let target d := path_target (fun x => prior0 d x + r0 d x) (fun x y q => prior d x y q + rt d x y q) (qs d) in
  (forall d, size (qs d) = m) ->
  (forall key d, pairwise_draws (path_mean m (target d)) M (draws key d)) ->
  (forall key d, always (fun xs => forall i, size (xs i) = m.+1) (draws key d)) ->
  prob_vec noise0 -> (forall q, prob_vec (noise q)) -> prob_vec pnoise0 -> (forall q, prob_vec (pnoise q)) ->
  (forall z, 0 < noise0 z) -> (forall q z, 0 < noise q z) -> (forall z, 0 < pnoise0 z) -> (forall q z, 0 < pnoise q z) ->
  (forall (x : {ffun 'I_n'.+1 -> X}) (a b : 'I_n'.+1) phi, logH0 (moved a x) phi (b + a) = logH0 x phi b) ->
  (forall q (xm x : {ffun 'I_n'.+1 -> X}) (a b : 'I_n'.+1) phi, logH q (moved a xm) (moved a x) phi (b + a) = logH q xm x phi b) ->
  (exists S : {ffun 'I_n'.+1 -> X} -> R, forall (x : {ffun 'I_n'.+1 -> X}) b phi,
     \sum_u noise0 (u - (x b + phi)) * \prod_(i | i != b) pnoise0 (x i - mean0 u) = S x * exp (logH0 x phi b)) ->
  (forall q (xm : {ffun 'I_n'.+1 -> X}), exists S : {ffun 'I_n'.+1 -> X} -> R, forall (x : {ffun 'I_n'.+1 -> X}) b phi,
     \sum_u noise q (u - (x b + phi)) * \prod_(i | i != b) pnoise q (x i - mean q (xm i) u) = S x * exp (logH q xm x phi b)) ->
  let kern d key x0 xs b0 bs := drop_weights
       (tp_kernel noise0 noise scale0 scale pnoise0 pnoise mean0 mean (prior0 d) (prior d) (r0 d) (rt d)
          (g0 d) (gt d) logH0 logH rs mv key x0 xs b0 bs (qs d) backward) in
  estimates_jump m M target coord x (fun d => from_zeros m (kern d) key0)
    (fun get_data key K => lg_esjd_run coord fst get_data draws (fun _ xs => (xs, nseq m.+1 ord0)) (fun d => on_pairs (kern d)) key K M)
  /\ (good_mover mv -> forall d, path_invariant m (target d) (from_zeros m (kern d) key0)).
Proof. move=> tgt *; apply: (@tp_esjd D n' m dx M rs mv bias backward M0 n0 mr dr fm X coord x draws Q); eassumption. Qed.
End Kernels.
Print Assumptions C74_csmc.
Print Assumptions C74_rw.
Print Assumptions C74_l.
Print Assumptions C74_al.
Print Assumptions C74_tp_csmc.

(** Non-vacuity: M trajectories drawn independently from a positive target meet the hypotheses on [draws], and a complete
    experiment with them, killing resampling and Barker's move meets all the hypotheses of C74_csmc. *)
Example ex_draws (X : finType) (m M : nat) (target : X -> seq X -> R) (x : X) key : (forall x0 xs, 0 < target x0 xs) ->
  pairwise_draws (path_mean m target) M (path_draws m M target x key)
  /\ always (fun xs => forall i, size (xs i) = m.+1) (path_draws m M target x key).
Proof. by move=> pos; split; [exact: path_draws_pairwise | exact: path_draws_size]. Qed.
Example ex_jump n' m M (G0 : bool -> bool -> R) (Gt : bool -> bool -> bool -> unit -> R) key0 : (0 < n')%N -> (0 < M)%N ->
  let kern d key x0 xs b0 bs := drop_weights
    (kernel (@killing n') (@barker_move n'.+1) (ex_model n' (G0 d) (Gt d)) key x0 xs b0 bs (nseq m tt) (nseq m tt) true true) in
  let target d := path_target (G0 d) (Gt d) (nseq m tt) in
  estimates_jump m M target (fun (b : bool) (_ : 'I_1) => b%:R) true (fun d => from_zeros m (kern d) key0)
    (fun get_data key K => lg_esjd_run (fun (b : bool) (_ : 'I_1) => b%:R) fst get_data
       (fun key d => path_draws m M (target d) true key) (fun _ xs => (xs, nseq m.+1 ord0)) (fun d => on_pairs (kern d)) key K M)
  /\ forall d, path_invariant m (target d) (from_zeros m (kern d) key0).
Proof. by move=> n0 M0; apply: ex_jump_ok. Qed.
