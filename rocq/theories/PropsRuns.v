(** * Property theorems C73: what the whole stochastic volatility experiment records.  Statements only; the proofs are
    in RunProofs.v and RunFinal.v.

    [sv_particle_run] and [sv_single_run] (Runs.v) are the programs of experiment.py:124-184, repeated K times, with
    M chains each: data, initial trajectory, adaptation of the step sizes from the accepted moves, M burn-in chains
    from the adapted state, M sampling chains.  [sound_run] (RunSpec.v): there is one rate for all the executions of
    the K repetitions, such that the mean square of the difference between the average of any function recorded by
    any chain and its mean under the target given by the data of its repetition is at most a constant over the
    number of steps plus the bias of the final move; every record has all its steps; without bias, the recorded
    averages are consistent.  The data, the adapted step sizes and the states between the phases are random.

    States range over a finite set or a finite group.  [set] turns a step size into the setting of a time. *)
From Coq Require Import Reals.
From mathcomp Require Import all_ssreflect all_algebra.
From Verif Require Import RInst Prog Resampling Spec Csmc CsmcInvariance CsmcSpecs AuxCsmc AuxFinal TpCsmc TpFinal Single SingleSpec Drivers.
From Verif Require Import Experiments ErgodicSpec ErgodicFinal ErgodicTp ErgodicSingleSpec ErgodicSingle ProperSpec Runs RunSpec RunProofs RunFinal DriverProofs.

Set Implicit Arguments.
Unset Strict Implicit.
Unset Printing Implicit Defensive.
Import GRing.Theory Num.Theory Order.TTheory.
Local Open Scope ring_scope.

(** ** C73 *)
(** Any kernels that settle for all the step sizes that the adaptation can reach ([okd]); the step sizes may be adapted
    from the acceptances in any way ([stat]). *)
Theorem C73_particles (D : Type) (X : finType) (n' m : nat) (get_data : key -> prog D) (start : key -> D -> prog (seq X))
    (kern : D -> ('I_m.+1 -> R) -> key -> X -> seq X -> 'I_n'.+1 -> seq 'I_n'.+1 -> prog (seq X * seq 'I_n'.+1))
    (stat : ('I_m.+1 -> option R) -> 'I_m.+1 -> option R) (cfg : config) (delta_init : R) (adaptation : nat)
    (target : D -> X -> seq X -> R) (bias : R -> R) (okd : R -> Prop) :
  (forall key, proper (get_data key)) -> (forall key d, proper (start key d)) ->
  (forall key d, always (fun xs => size xs = m.+1) (start key d)) ->
  (forall d delta key x0 xs b0 bs, (forall t, okd (delta t)) -> proper (kern d delta key x0 xs b0 bs)) ->
  (forall d delta, (forall t, okd (delta t)) -> settles m (target d) (kern d delta) bias) ->
  (forall c, 0 <= c -> 0 <= bias c) ->
  okd delta_init -> (forall i a x, okd x -> okd (adapt_delta cfg i a x)) ->
  sound_run (fun d f => path_mean m (target d) f) bias
    (viewed (@samples_of _ _ _ _) (sv_particle_run get_data start kern stat cfg delta_init adaptation)).
Proof. by move=> *; apply: (@particle_run_converge D X n' m get_data start kern stat cfg delta_init adaptation target bias okd). Qed.
Print Assumptions C73_particles.

Theorem C73_positions (D : Type) (X : finType) (C : Type) (get_data : key -> prog D) (start : key -> D -> prog X)
    (cached : D -> X -> C) (kern : D -> R -> key -> X * C -> prog (X * C * bool))
    (cfg : config) (delta_init : R) (adaptation : nat) (target : D -> X -> R) (bias : R -> R) (x0 : X) :
  (forall key, proper (get_data key)) -> (forall key d, proper (start key d)) ->
  (forall d delta key s, 0 < delta -> proper (kern d delta key s)) ->
  (forall d delta key x, always (fun r => r.1.2 = cached d r.1.1) (kern d delta key (x, cached d x))) ->
  (forall d delta, 0 < delta -> settles_position (cached d) (kern d delta) (target d) bias) ->
  (forall c, 0 <= c -> 0 <= bias c) ->
  0 < delta_init -> 0 < min_delta cfg <= max_delta cfg ->
  sound_run (fun d f => mean_under (target d) f) bias
    (viewed (@samples_of _ _ _ _) (sv_single_run get_data start cached kern cfg delta_init adaptation)).
Proof. by move=> *; apply: (@single_run_converge D X C get_data start cached kern cfg delta_init adaptation target bias x0). Qed.
Print Assumptions C73_positions.

(** The initial trajectory of the code, an unconditional pass of csmc.py, meets the hypotheses on [start]. *)
Theorem C73_start (X : Type) (n' m : nat) (P Q : Type) (md : model X n' P Q) (rs : resampler n'.+1) (mv : mover n'.+1)
    key x0 xs b0 bs ps qs backward :
  (forall key, proper (M0_rvs md key)) -> (forall key xm p, proper (Mt_rvs md key xm p)) ->
  draws_resampler rs -> draws_mover mv ->
  size xs = m -> size bs = m -> size ps = m -> size qs = m ->
  proper (do r <- kernel rs mv md key x0 xs b0 bs ps qs backward false; Ret r.1.1)
  /\ always (fun zs => size zs = m.+1) (do r <- kernel rs mv md key x0 xs b0 bs ps qs backward false; Ret r.1.1).
Proof. exact: csmc_start. Qed.
Print Assumptions C73_start.

(** The kernels of the code.  [final_move mv bias]: [mv] meets its contract (Barker) and [bias] is zero, or [mv] is
    [force_move] and [bias] is the error of its threshold. *)
Theorem C73_csmc (D : Type) (n' m : nat) (get_data : key -> prog D)
    (stat : ('I_m.+1 -> option R) -> 'I_m.+1 -> option R) (cfg : config) (delta_init : R) (adaptation : nat)
    (rs : resampler n'.+1) (mv : mover n'.+1) (bias : R -> R) (backward : bool)
    (X : finType) (start : key -> D -> prog (seq X)) (P Q : Type) (md : D -> model X n' P Q)
    (mu0 : D -> X -> R) (mut : D -> X -> P -> X -> R) (ps : D -> seq P) (qs : D -> seq Q) :
  (forall key, proper (get_data key)) -> (0 < n')%N -> mixing_resampler rs -> draws_resampler rs -> final_move mv bias ->
  (forall key d, proper (start key d)) -> (forall key d, always (fun xs => size xs = m.+1) (start key d)) ->
  (forall d, markov_model (md d) (mu0 d) (mut d)) -> (forall d, size (ps d) = m) -> (forall d, size (qs d) = m) ->
  (0 < #|X|)%N ->
  sound_run (fun d f => path_mean m (path_target (Gamma0 (md d)) (Gammat (md d)) (qs d)) f) bias
    (viewed (@samples_of _ _ _ _) (sv_particle_run get_data start
       (fun d _ key x0 xs b0 bs => drop_weights (kernel rs mv (md d) key x0 xs b0 bs (ps d) (qs d) backward true))
       stat cfg delta_init adaptation)).
Proof. by move=> *; apply: (@csmc_run D n' m get_data stat cfg delta_init adaptation rs mv bias backward _ _ _ _ _ X start P Q md mu0 mut). Qed.
Print Assumptions C73_csmc.

Theorem C73_rw (D : Type) (n' m : nat) (get_data : key -> prog D)
    (stat : ('I_m.+1 -> option R) -> 'I_m.+1 -> option R) (cfg : config) (delta_init : R) (adaptation : nat)
    (rs : resampler n'.+1) (mv : mover n'.+1) (bias : R -> R) (backward : bool)
    (X : finZmodType) (start : key -> D -> prog (seq X)) (Q setting : Type) (noise ld : setting -> X -> R)
    (scale : setting -> X -> X) (logH : setting -> {ffun 'I_n'.+1 -> X} -> X -> X -> R)
    (G0 : D -> X -> R) (Gt : D -> X -> X -> Q -> R) (g0 : D -> X -> X) (gt : D -> X -> X -> Q -> X) (qs : D -> seq Q)
    (set : R -> setting) :
  (forall key, proper (get_data key)) -> (0 < n')%N -> mixing_resampler rs -> draws_resampler rs -> final_move mv bias ->
  (forall key d, proper (start key d)) -> (forall key d, always (fun xs => size xs = m.+1) (start key d)) ->
  (forall s, prob_vec (noise s)) -> (forall s z, 0 < noise s z) -> (forall d, size (qs d) = m) ->
  (forall s z, noise s (- z) = noise s z) ->
  sound_run (fun d f => path_mean m (path_target (G0 d) (Gt d) (qs d)) f) bias
    (viewed (@samples_of _ _ _ _) (sv_particle_run get_data start
       (fun d delta key x0 xs b0 bs => drop_weights
          (rw_kernel noise rs mv (G0 d) (Gt d) xpredT key x0 xs b0 bs (set (delta ord0))
             [seq set (delta (lift ord0 t)) | t <- enum 'I_m] (qs d) backward))
       stat cfg delta_init adaptation)).
Proof. by move=> *; apply: rw_run. Qed.
Print Assumptions C73_rw.

Theorem C73_l (D : Type) (n' m : nat) (get_data : key -> prog D)
    (stat : ('I_m.+1 -> option R) -> 'I_m.+1 -> option R) (cfg : config) (delta_init : R) (adaptation : nat)
    (rs : resampler n'.+1) (mv : mover n'.+1) (bias : R -> R) (backward : bool)
    (X : finZmodType) (start : key -> D -> prog (seq X)) (Q setting : Type) (noise ld : setting -> X -> R)
    (scale : setting -> X -> X) (logH : setting -> {ffun 'I_n'.+1 -> X} -> X -> X -> R)
    (G0 : D -> X -> R) (Gt : D -> X -> X -> Q -> R) (g0 : D -> X -> X) (gt : D -> X -> X -> Q -> X) (qs : D -> seq Q)
    (set : R -> setting) :
  (forall key, proper (get_data key)) -> (0 < n')%N -> mixing_resampler rs -> draws_resampler rs -> final_move mv bias ->
  (forall key d, proper (start key d)) -> (forall key d, always (fun xs => size xs = m.+1) (start key d)) ->
  (forall s, prob_vec (noise s)) -> (forall s z, 0 < noise s z) -> (forall d, size (qs d) = m) ->
  (forall s, exists S : {ffun 'I_n'.+1 -> X} -> R, forall (x : {ffun 'I_n'.+1 -> X}) b phi,
     \sum_u noise s (u - (x b + phi)) * \prod_(i | i != b) noise s (x i - u) = S x * exp (logH s x phi (x b))) ->
  (forall s x a phi y, logH s (moved a x) phi y = logH s x phi y) ->
  sound_run (fun d f => path_mean m (path_target (G0 d) (Gt d) (qs d)) f) bias
    (viewed (@samples_of _ _ _ _) (sv_particle_run get_data start
       (fun d delta key x0 xs b0 bs => drop_weights
          (l_kernel noise scale logH rs mv (G0 d) (Gt d) (g0 d) (gt d) key x0 xs b0 bs (set (delta ord0))
             [seq set (delta (lift ord0 t)) | t <- enum 'I_m] (qs d) backward))
       stat cfg delta_init adaptation)).
Proof. by move=> *; apply: l_run. Qed.
Print Assumptions C73_l.

Theorem C73_al (D : Type) (n' m : nat) (get_data : key -> prog D)
    (stat : ('I_m.+1 -> option R) -> 'I_m.+1 -> option R) (cfg : config) (delta_init : R) (adaptation : nat)
    (rs : resampler n'.+1) (mv : mover n'.+1) (bias : R -> R) (backward : bool)
    (X : finZmodType) (start : key -> D -> prog (seq X)) (Q setting : Type) (noise ld : setting -> X -> R)
    (scale : setting -> X -> X) (logH : setting -> {ffun 'I_n'.+1 -> X} -> X -> X -> R)
    (G0 : D -> X -> R) (Gt : D -> X -> X -> Q -> R) (g0 : D -> X -> X) (gt : D -> X -> X -> Q -> X) (qs : D -> seq Q)
    (set : R -> setting) :
  (forall key, proper (get_data key)) -> (0 < n')%N -> mixing_resampler rs -> draws_resampler rs -> final_move mv bias ->
  (forall key d, proper (start key d)) -> (forall key d, always (fun xs => size xs = m.+1) (start key d)) ->
  (forall s, prob_vec (noise s)) -> (forall s z, 0 < noise s z) -> (forall d, size (qs d) = m) ->
  (forall s, exists c, c != 0 /\ forall z, exp (ld s z) = c * noise s z) ->
  sound_run (fun d f => path_mean m (path_target (G0 d) (Gt d) (qs d)) f) bias
    (viewed (@samples_of _ _ _ _) (sv_particle_run get_data start
       (fun d delta key x0 xs b0 bs => drop_weights
          (al_kernel noise ld scale rs mv (G0 d) (Gt d) (g0 d) (gt d) key x0 xs b0 bs (set (delta ord0))
             [seq set (delta (lift ord0 t)) | t <- enum 'I_m] (qs d) backward))
       stat cfg delta_init adaptation)).
Proof. by move=> *; apply: al_run. Qed.
Print Assumptions C73_al.

Theorem C73_tp_csmc (D : Type) (n' m : nat) (get_data : key -> prog D)
    (stat : ('I_m.+1 -> option R) -> 'I_m.+1 -> option R) (cfg : config) (delta_init : R) (adaptation : nat)
    (rs : resampler n'.+1) (mv : mover n'.+1) (bias : R -> R) (backward : bool)
    (X : finZmodType) (start : key -> D -> prog (seq X)) (Q setting : Type) (set : R -> setting)
    (noise0 : setting -> X -> R) (noise : setting * Q -> X -> R) (scale0 : setting -> X -> X) (scale : setting * Q -> X -> X)
    (pnoise0 : setting -> X -> R) (pnoise : setting * Q -> X -> R) (mean0 : setting -> X -> X)
    (mean : setting * Q -> X -> X -> X)
    (prior0 : D -> X -> R) (prior : D -> X -> X -> Q -> R) (r0 : D -> X -> R) (rt : D -> X -> X -> Q -> R)
    (g0 : D -> X -> X) (gt : D -> X -> X -> Q -> X) (qs : D -> seq Q)
    (logH0 : setting -> {ffun 'I_n'.+1 -> X} -> X -> 'I_n'.+1 -> R)
    (logH : setting * Q -> {ffun 'I_n'.+1 -> X} -> {ffun 'I_n'.+1 -> X} -> X -> 'I_n'.+1 -> R) :
  (forall key, proper (get_data key)) -> (0 < n')%N -> mixing_resampler rs -> draws_resampler rs -> final_move mv bias ->
  (forall key d, proper (start key d)) -> (forall key d, always (fun xs => size xs = m.+1) (start key d)) ->
  (forall d, size (qs d) = m) ->
  (forall s, prob_vec (noise0 s)) -> (forall q, prob_vec (noise q)) ->
  (forall s, prob_vec (pnoise0 s)) -> (forall q, prob_vec (pnoise q)) ->
  (forall s z, 0 < noise0 s z) -> (forall q z, 0 < noise q z) -> (forall s z, 0 < pnoise0 s z) -> (forall q z, 0 < pnoise q z) ->
  (forall s (x : {ffun 'I_n'.+1 -> X}) (a b : 'I_n'.+1) phi, logH0 s (moved a x) phi (b + a) = logH0 s x phi b) ->
  (forall q (xm x : {ffun 'I_n'.+1 -> X}) (a b : 'I_n'.+1) phi,
     logH q (moved a xm) (moved a x) phi (b + a) = logH q xm x phi b) ->
  (forall s, exists S : {ffun 'I_n'.+1 -> X} -> R, forall (x : {ffun 'I_n'.+1 -> X}) b phi,
     \sum_u noise0 s (u - (x b + phi)) * \prod_(i | i != b) pnoise0 s (x i - mean0 s u) = S x * exp (logH0 s x phi b)) ->
  (forall q (xm : {ffun 'I_n'.+1 -> X}), exists S : {ffun 'I_n'.+1 -> X} -> R, forall (x : {ffun 'I_n'.+1 -> X}) b phi,
     \sum_u noise q (u - (x b + phi)) * \prod_(i | i != b) pnoise q (x i - mean q (xm i) u)
     = S x * exp (logH q xm x phi b)) ->
  sound_run (fun d f => path_mean m
      (path_target (fun x => prior0 d x + r0 d x) (fun x y q => prior d x y q + rt d x y q) (qs d)) f) bias
    (viewed (@samples_of _ _ _ _) (sv_particle_run get_data start
       (fun d delta key x0 xs b0 bs => let s0 := set (delta ord0) in drop_weights
          (tp_kernel (noise0 s0) noise (scale0 s0) scale (pnoise0 s0) pnoise (mean0 s0) mean
             (prior0 d) (fun x y q => prior d x y q.2) (r0 d) (fun x y q => rt d x y q.2)
             (g0 d) (fun x y q => gt d x y q.2) (logH0 s0) logH rs mv key x0 xs b0 bs
             (zip [seq set (delta (lift ord0 t)) | t <- enum 'I_m] (qs d)) backward))
       stat cfg delta_init adaptation)).
Proof. by move=> *; apply: tp_run. Qed.
Print Assumptions C73_tp_csmc.

Theorem C73_mala (D : Type) (X : finZmodType) (N : nat) (get_data : key -> prog D) (start : key -> D -> prog X)
    (cfg : config) (delta_init : R) (adaptation : nat) (mv : mover N.+1) (bias : R -> R)
    (log_pdf : D -> X -> R) (grad : D -> X -> X) (noise ld : R -> X -> R) (scale : R -> X -> X)
    (log_H : R -> {ffun 'I_N.+1 -> X} -> X -> X -> R) (aux : bool) :
  (forall key, proper (get_data key)) -> (forall key d, proper (start key d)) -> (0 < N)%N ->
  (forall delta, 0 < delta -> prob_vec (noise delta)) -> (forall delta z, 0 < delta -> 0 < noise delta z) ->
  single_move mv bias -> 0 < delta_init -> 0 < min_delta cfg <= max_delta cfg ->
  (forall delta, 0 < delta ->
   if aux then (forall z, noise delta (- z) = noise delta z) /\ exists c, c != 0 /\ forall z, exp (ld delta z) = c * noise delta z
   else exists S : {ffun 'I_N.+1 -> X} -> R, forall (x : {ffun 'I_N.+1 -> X}) b phi,
     \sum_u noise delta (u - (x b + phi)) * \prod_(i | i != b) noise delta (x i - u) = S x * exp (log_H delta x (x b) phi)) ->
  sound_run (fun d f => mean_under (fun x => exp (log_pdf d x)) f) bias
    (viewed (@samples_of _ _ _ _) (sv_single_run get_data start (fun d x => (log_pdf d x, grad d x))
       (fun d delta => regrouped (fun key =>
          mala_kernel (log_pdf d) (grad d) (noise delta) (ld delta) (scale delta) (log_H delta) mv key aux))
       cfg delta_init adaptation)).
Proof. by move=> *; apply: mala_whole. Qed.
Print Assumptions C73_mala.

Theorem C73_tp (D : Type) (X : finZmodType) (N : nat) (get_data : key -> prog D) (start : key -> D -> prog X)
    (cfg : config) (delta_init : R) (adaptation : nat) (mv : mover N.+1) (bias : R -> R)
    (log_pdf : D -> X -> R) (grad : D -> X -> X) (noise : R -> X -> R) (scale : R -> X -> X)
    (corr : R -> X -> X -> X -> R) (post_sampling : R -> key -> X -> prog {ffun 'I_N -> X}) (prior : X -> R)
    (post : R -> X -> X -> R) :
  (forall key, proper (get_data key)) -> (forall key d, proper (start key d)) -> (0 < N)%N ->
  (forall delta, 0 < delta -> prob_vec (noise delta)) -> (forall delta z, 0 < delta -> 0 < noise delta z) ->
  single_move mv bias -> 0 < delta_init -> 0 < min_delta cfg <= max_delta cfg ->
  (forall delta u z, 0 < delta -> 0 < post delta u z) -> (forall x, 0 < prior x) ->
  (forall delta key u, 0 < delta -> samples_indep (post_sampling delta key u) (fun _ => post delta u)) ->
  (forall delta u, 0 < delta -> exists Z, forall x, prior x * noise delta (u - x) = Z * post delta u x) ->
  (forall delta u x g, 0 < delta -> noise delta (u - x) * exp (corr delta u x g) = noise delta (u - (x + scale delta g))) ->
  sound_run (fun d f => mean_under (fun x => prior x * exp (log_pdf d x)) f) bias
    (viewed (@samples_of _ _ _ _) (sv_single_run get_data start (fun d x => (log_pdf d x, grad d x))
       (fun d delta => regrouped
          (tp1_kernel (log_pdf d) (grad d) (noise delta) (scale delta) mv (corr delta) (post_sampling delta)))
       cfg delta_init adaptation)).
Proof. by move=> *; apply: tp1_whole; eassumption. Qed.
Print Assumptions C73_tp.

(** Non-vacuity: a complete run, with random data (one bit, that shifts the potentials), killing resampling,
    Barker's move and an unconditional pass of csmc.py for the initial trajectory; the targets are positive whatever
    the potentials. *)
Example ex_run n' (m : nat) (G0 : bool -> bool -> R) (Gt : bool -> bool -> bool -> unit -> R)
    (stat : ('I_m.+1 -> option R) -> 'I_m.+1 -> option R) cfg delta_init adaptation
    backward : (0 < n')%N ->
  sound_run (fun d f => path_mean m (path_target (G0 d) (Gt d) (nseq m tt)) f) (fun=> 0)
    (viewed (@samples_of _ _ _ _) (sv_particle_run (fun key => draw key (fun _ : bool => half))
       (fun key d => do r <- kernel (@killing n') (@barker_move n'.+1) (ex_model n' (G0 d) (Gt d)) key
                       true (nseq m true) ord0 (nseq m ord0) (nseq m tt) (nseq m tt) true false; Ret r.1.1)
       (fun d _ key x0 xs b0 bs => drop_weights
          (kernel (@killing n') (@barker_move n'.+1) (ex_model n' (G0 d) (Gt d)) key x0 xs b0 bs
             (nseq m tt) (nseq m tt) backward true))
       stat cfg delta_init adaptation)).
Proof. exact: ex_run_sound. Qed.
Example ex_run_moves n' : final_move (@barker_move n'.+1) (fun=> 0) /\ final_move (@force_move n'.+1) (force_eps n'.+1).
Proof. exact: ex_final_moves. Qed.
Example ex_run_cfg : 0 < min_delta ex_cfg <= max_delta ex_cfg.
Proof. by have [_ _ h1 h2 _] := ex_cfg_ok; rewrite h1. Qed.
