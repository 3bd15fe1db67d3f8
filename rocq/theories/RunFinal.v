(** * RunFinal: the stochastic volatility experiment with each kernel. *)
From Coq Require Import Reals Lra FunctionalExtensionality.
From mathcomp Require Import all_ssreflect all_algebra.
From Verif Require Import RInst Prog ProgTheory Resampling Spec Csmc CsmcProofs CsmcInvariance CsmcSpecs AuxCsmc AuxFinal.
From Verif Require Import TpCsmc TpFinal Single SingleSpec Drivers DriverProofs Experiments.
From Verif Require Import ErgodicSpec ErgodicCsmc ErgodicSweep ErgodicFinal ErgodicTp ErgodicSingleSpec ErgodicSingle.
From Verif Require Import ProperSpec ProperProofs Runs RunSpec RunProofs.

Set Implicit Arguments.
Unset Strict Implicit.
Unset Printing Implicit Defensive.
Import GRing.Theory Num.Theory Order.TTheory.
Local Open Scope ring_scope.

(** The final move and the bias that it leaves: none if it meets its contract (Barker), the bias of the threshold for
    [force_move]. *)
Definition final_move (n' : nat) (mv : mover n'.+1) (bias : R -> R) : Prop :=
  [/\ mixing_mover mv, good_mover mv & bias = (fun=> 0)] \/ mv = @force_move n'.+1 /\ bias = force_eps n'.+1.
Definition single_move (n' : nat) (mv : mover n'.+1) (bias : R -> R) : Prop :=
  [/\ mixing_mover mv, relabels mv, good_mover mv & bias = (fun=> 0)] \/ mv = @force_move n'.+1 /\ bias = force_eps n'.+1.

Lemma final_draws n' (mv : mover n'.+1) bias : final_move mv bias -> draws_mover mv.
Proof. by case=> [[[_ _ h]]|[-> _]] //; have [_ _ _] := code_draws n'. Qed.
Lemma single_draws n' (mv : mover n'.+1) bias : single_move mv bias -> draws_mover mv.
Proof. by case=> [[[_ _ h]]|[-> _]] //; have [_ _ _] := code_draws n'. Qed.
Lemma force_eps_ge0 n c : 0 <= c -> 0 <= force_eps n c.
Proof. by move=> c0; rewrite force_dE mulr_ge0 // force_d_ge0. Qed.
Lemma final_bias n' (mv : mover n'.+1) bias : final_move mv bias -> forall c, 0 <= c -> 0 <= bias c.
Proof. by case=> [[_ _ ->]|[_ ->]] c c0 //; exact: force_eps_ge0. Qed.
Lemma single_bias n' (mv : mover n'.+1) bias : single_move mv bias -> forall c, 0 <= c -> 0 <= bias c.
Proof. by case=> [[_ _ _ ->]|[_ ->]] c c0 //; exact: force_eps_ge0. Qed.

Lemma drop_proper (A B C : Type) (p : prog (A * B * C)) : proper p -> proper (drop_weights p).
Proof. by move=> h; apply: proper_bind. Qed.

(** The initial trajectory: an unconditional pass of csmc.py. *)
Lemma csmc_start (X : Type) (n' m : nat) (P Q : Type) (md : model X n' P Q) rs mv key x0 xs b0 bs ps qs backward :
  (forall key, proper (M0_rvs md key)) -> (forall key xm p, proper (Mt_rvs md key xm p)) ->
  draws_resampler rs -> draws_mover mv ->
  size xs = m -> size bs = m -> size ps = m -> size qs = m ->
  proper (do r <- kernel rs mv md key x0 xs b0 bs ps qs backward false; Ret r.1.1)
  /\ always (fun zs => size zs = m.+1) (do r <- kernel rs mv md key x0 xs b0 bs ps qs backward false; Ret r.1.1).
Proof.
move=> h1 h2 h3 h4 sx sb sp sq; split.
  by apply: proper_bind => //; exact: kernel_proper.
apply/always_bind; have := @kernel_sizes X n' P Q md rs mv key x0 xs b0 bs ps qs backward false.
rewrite sp sq sb sx => /(_ erefl erefl erefl); by apply: always_imp => r [].
Qed.

Lemma zip_path (X S Q : Type) (G : X -> X -> Q -> R) x0 xs (ss : seq S) (qs : seq Q) : size ss = size qs ->
  log_path (fun x y (q : S * Q) => G x y q.2) x0 xs (zip ss qs) = log_path G x0 xs qs.
Proof. by elim: xs x0 ss qs => [|x xs IH] x0 [|s ss] [|q qs] //= [sz]; rewrite IH. Qed.

Section Particles.
Variables (D : Type) (n' m : nat) (get_data : key -> prog D).
Variables (stat : ('I_m.+1 -> option R) -> 'I_m.+1 -> option R) (cfg : config) (delta_init : R) (adaptation : nat).
Variables (rs : resampler n'.+1) (mv : mover n'.+1) (bias : R -> R) (backward : bool).
Hypotheses (dataP : forall key, proper (get_data key)) (n0 : (0 < n')%N) (mr : mixing_resampler rs)
  (rsP : draws_resampler rs) (fm : final_move mv bias).

Section Csmc.
Variables (X : finType) (start : key -> D -> prog (seq X)) (P Q : Type) (md : D -> model X n' P Q).
Variables (mu0 : D -> X -> R) (mut : D -> X -> P -> X -> R) (ps : D -> seq P) (qs : D -> seq Q).
Hypotheses (startP : forall key d, proper (start key d)) (start_size : forall key d, always (fun xs => size xs = m.+1) (start key d)).
Hypotheses (mk : forall d, markov_model (md d) (mu0 d) (mut d)) (szp : forall d, size (ps d) = m) (szq : forall d, size (qs d) = m)
  (X0 : (0 < #|X|)%N).

Lemma csmc_run : sound_run (fun d f => path_mean m (path_target (Gamma0 (md d)) (Gammat (md d)) (qs d)) f) bias
  (viewed (@samples_of _ _ _ _) (sv_particle_run get_data start
     (fun d _ key x0 xs b0 bs => drop_weights (kernel rs mv (md d) key x0 xs b0 bs (ps d) (qs d) backward true))
     stat cfg delta_init adaptation)).
Proof.
have fd := final_draws fm; have fb := final_bias fm.
apply: (@particle_run_converge D X n' m get_data start _ stat cfg delta_init adaptation
  (fun d => path_target (Gamma0 (md d)) (Gammat (md d)) (qs d)) bias (fun=> True)) => //.
- move=> d _ key x0 xs b0 bs _; apply: drop_proper; apply: kernel_proper => // [k|k xm p].
  + by have [h _ _ _] := mk d; have [h' _ _] := h k.
  + by have [_ _ h _] := mk d; have [h' _ _] := h k xm p.
- move=> d _ _; rewrite -(szq d); case: fm => [[mm gm ->]|[-> ->]].
  + by apply: (csmc_settles backward (mk d)); rewrite ?szp ?szq.
  + by apply: (csmc_settles_force backward (mk d)); rewrite ?szp ?szq.
Qed.
End Csmc.

Section Three.
Variables (X : finZmodType) (start : key -> D -> prog (seq X)) (Q setting : Type) (noise ld : setting -> X -> R).
Variables (scale : setting -> X -> X) (logH : setting -> {ffun 'I_n'.+1 -> X} -> X -> X -> R).
Variables (G0 : D -> X -> R) (Gt : D -> X -> X -> Q -> R) (g0 : D -> X -> X) (gt : D -> X -> X -> Q -> X) (qs : D -> seq Q).
Variable set : R -> setting.
Hypotheses (startP : forall key d, proper (start key d)) (start_size : forall key d, always (fun xs => size xs = m.+1) (start key d)).
Hypotheses (noiseP : forall s, prob_vec (noise s)) (noise_gt0 : forall s z, 0 < noise s z) (szq : forall d, size (qs d) = m).
Local Notation mean := (fun d f => path_mean m (path_target (G0 d) (Gt d) (qs d)) f).
Local Notation first delta := (set (delta ord0)).
Local Notation others delta := [seq set (delta (lift ord0 t)) | t <- enum 'I_m].

Lemma others_size (delta : 'I_m.+1 -> R) d : size (others delta) = size (qs d).
Proof. by rewrite size_map size_enum_ord szq. Qed.

Lemma rw_run : (forall s z, noise s (- z) = noise s z) -> sound_run mean bias
  (viewed (@samples_of _ _ _ _) (sv_particle_run get_data start
     (fun d delta key x0 xs b0 bs => drop_weights
        (rw_kernel noise rs mv (G0 d) (Gt d) xpredT key x0 xs b0 bs (first delta) (others delta) (qs d) backward))
     stat cfg delta_init adaptation)).
Proof.
move=> ev; have fd := final_draws fm; have fb := final_bias fm.
apply: (@particle_run_converge D X n' m get_data start _ stat cfg delta_init adaptation
  (fun d => path_target (G0 d) (Gt d) (qs d)) bias (fun=> True)) => //.
- by move=> d delta key x0 xs b0 bs _; apply: drop_proper; exact: rw_proper.
- move=> d delta _; have := others_size delta d; move: (first delta) (others delta) => s0 ss so; rewrite -(szq d).
  case: fm => [[mm gm ->]|[-> ->]].
  + exact: rw_settles.
  + exact: rw_settles_force.
Qed.

Lemma l_run :
  (forall s, exists S : {ffun 'I_n'.+1 -> X} -> R, forall (x : {ffun 'I_n'.+1 -> X}) b phi,
     \sum_u noise s (u - (x b + phi)) * \prod_(i | i != b) noise s (x i - u) = S x * exp (logH s x phi (x b))) ->
  (forall s x a phi y, logH s (moved a x) phi y = logH s x phi y) -> sound_run mean bias
  (viewed (@samples_of _ _ _ _) (sv_particle_run get_data start
     (fun d delta key x0 xs b0 bs => drop_weights
        (l_kernel noise scale logH rs mv (G0 d) (Gt d) (g0 d) (gt d) key x0 xs b0 bs (first delta) (others delta) (qs d) backward))
     stat cfg delta_init adaptation)).
Proof.
move=> cor lm; have fd := final_draws fm; have fb := final_bias fm.
apply: (@particle_run_converge D X n' m get_data start _ stat cfg delta_init adaptation
  (fun d => path_target (G0 d) (Gt d) (qs d)) bias (fun=> True)) => //.
- by move=> d delta key x0 xs b0 bs _; apply: drop_proper; exact: l_proper.
- move=> d delta _; have := others_size delta d; move: (first delta) (others delta) => s0 ss so; rewrite -(szq d).
  case: fm => [[mm gm ->]|[-> ->]].
  + exact: l_settles.
  + exact: l_settles_force.
Qed.

Lemma al_run : (forall s, exists c, c != 0 /\ forall z, exp (ld s z) = c * noise s z) -> sound_run mean bias
  (viewed (@samples_of _ _ _ _) (sv_particle_run get_data start
     (fun d delta key x0 xs b0 bs => drop_weights
        (al_kernel noise ld scale rs mv (G0 d) (Gt d) (g0 d) (gt d) key x0 xs b0 bs (first delta) (others delta) (qs d) backward))
     stat cfg delta_init adaptation)).
Proof.
move=> ldP; have fd := final_draws fm; have fb := final_bias fm.
apply: (@particle_run_converge D X n' m get_data start _ stat cfg delta_init adaptation
  (fun d => path_target (G0 d) (Gt d) (qs d)) bias (fun=> True)) => //.
- by move=> d delta key x0 xs b0 bs _; apply: drop_proper; exact: al_proper.
- move=> d delta _; have := others_size delta d; move: (first delta) (others delta) => s0 ss so; rewrite -(szq d).
  case: fm => [[mm gm ->]|[-> ->]].
  + exact: al_settles.
  + exact: al_settles_force.
Qed.
End Three.

Section Tp.
Variables (X : finZmodType) (start : key -> D -> prog (seq X)) (Q setting : Type) (set : R -> setting).
Variables (noise0 : setting -> X -> R) (noise : setting * Q -> X -> R) (scale0 : setting -> X -> X) (scale : setting * Q -> X -> X).
Variables (pnoise0 : setting -> X -> R) (pnoise : setting * Q -> X -> R) (mean0 : setting -> X -> X) (mean : setting * Q -> X -> X -> X).
Variables (prior0 : D -> X -> R) (prior : D -> X -> X -> Q -> R) (r0 : D -> X -> R) (rt : D -> X -> X -> Q -> R).
Variables (g0 : D -> X -> X) (gt : D -> X -> X -> Q -> X) (qs : D -> seq Q).
Variables (logH0 : setting -> {ffun 'I_n'.+1 -> X} -> X -> 'I_n'.+1 -> R)
  (logH : setting * Q -> {ffun 'I_n'.+1 -> X} -> {ffun 'I_n'.+1 -> X} -> X -> 'I_n'.+1 -> R).
Hypotheses (startP : forall key d, proper (start key d)) (start_size : forall key d, always (fun xs => size xs = m.+1) (start key d)).
Hypotheses (szq : forall d, size (qs d) = m).
Local Notation first delta := (set (delta ord0)).
Local Notation others delta d := (zip [seq set (delta (lift ord0 t)) | t <- enum 'I_m] (qs d)).

Lemma zip_target (ss : seq setting) d : size ss = m ->
  path_target (fun x => prior0 d x + r0 d x) (fun x y (q : setting * Q) => prior d x y q.2 + rt d x y q.2) (zip ss (qs d))
  = path_target (fun x => prior0 d x + r0 d x) (fun x y q => prior d x y q + rt d x y q) (qs d).
Proof.
rewrite -(szq d) => sz; apply: functional_extensionality => x0; apply: functional_extensionality => xs.
by rewrite /path_target; congr (exp (_ + _)); exact: zip_path.
Qed.

Lemma tp_run :
  (forall s, prob_vec (noise0 s)) -> (forall q, prob_vec (noise q)) ->
  (forall s, prob_vec (pnoise0 s)) -> (forall q, prob_vec (pnoise q)) ->
  (forall s z, 0 < noise0 s z) -> (forall q z, 0 < noise q z) -> (forall s z, 0 < pnoise0 s z) -> (forall q z, 0 < pnoise q z) ->
  (forall s (x : {ffun 'I_n'.+1 -> X}) (a b : 'I_n'.+1) phi, logH0 s (moved a x) phi (b + a) = logH0 s x phi b) ->
  (forall q (xm x : {ffun 'I_n'.+1 -> X}) (a b : 'I_n'.+1) phi, logH q (moved a xm) (moved a x) phi (b + a) = logH q xm x phi b) ->
  (forall s, exists S : {ffun 'I_n'.+1 -> X} -> R, forall (x : {ffun 'I_n'.+1 -> X}) b phi,
     \sum_u noise0 s (u - (x b + phi)) * \prod_(i | i != b) pnoise0 s (x i - mean0 s u) = S x * exp (logH0 s x phi b)) ->
  (forall q (xm : {ffun 'I_n'.+1 -> X}), exists S : {ffun 'I_n'.+1 -> X} -> R, forall (x : {ffun 'I_n'.+1 -> X}) b phi,
     \sum_u noise q (u - (x b + phi)) * \prod_(i | i != b) pnoise q (x i - mean q (xm i) u) = S x * exp (logH q xm x phi b)) ->
  sound_run (fun d f => path_mean m (path_target (fun x => prior0 d x + r0 d x) (fun x y q => prior d x y q + rt d x y q) (qs d)) f) bias
  (viewed (@samples_of _ _ _ _) (sv_particle_run get_data start
     (fun d delta key x0 xs b0 bs => drop_weights
        (tp_kernel (noise0 (first delta)) noise (scale0 (first delta)) scale (pnoise0 (first delta)) pnoise
           (mean0 (first delta)) mean (prior0 d) (fun x y q => prior d x y q.2) (r0 d) (fun x y q => rt d x y q.2)
           (g0 d) (fun x y q => gt d x y q.2) (logH0 (first delta)) logH rs mv key x0 xs b0 bs (others delta d) backward))
     stat cfg delta_init adaptation)).
Proof.
move=> h1 h2 h3 h4 h5 h6 h7 h8 h9 h10 h11 h12; have fd := final_draws fm; have fb := final_bias fm.
apply: (@particle_run_converge D X n' m get_data start _ stat cfg delta_init adaptation
  (fun d => path_target (fun x => prior0 d x + r0 d x) (fun x y q => prior d x y q + rt d x y q) (qs d)) bias (fun=> True)) => //.
- by move=> d delta key x0 xs b0 bs _; apply: drop_proper; exact: tp_proper.
- move=> d delta _.
  have : size [seq set (delta (lift ord0 t)) | t <- enum 'I_m] = m by rewrite size_map size_enum_ord.
  move: (first delta) [seq set (delta (lift ord0 t)) | t <- enum 'I_m] => s0 ss so.
  rewrite -(zip_target d so); have sz : size (zip ss (qs d)) = m by rewrite size_zip so szq minnn.
  move: (zip ss (qs d)) sz => l sl; rewrite -sl.
  case: fm => [[mm gm ->]|[-> ->]].
  + exact: tp_settles.
  + exact: tp_settles_force.
Qed.
End Tp.
End Particles.

Section Single.
Variables (D : Type) (X : finZmodType) (N : nat) (get_data : key -> prog D) (start : key -> D -> prog X).
Variables (cfg : config) (delta_init : R) (adaptation : nat) (mv : mover N.+1) (bias : R -> R).
Variables (log_pdf : D -> X -> R) (grad : D -> X -> X) (noise : R -> X -> R) (scale : R -> X -> X).
Hypotheses (dataP : forall key, proper (get_data key)) (startP : forall key d, proper (start key d)) (N0 : (0 < N)%N)
  (noiseP : forall delta, 0 < delta -> prob_vec (noise delta)) (noise_gt0 : forall delta z, 0 < delta -> 0 < noise delta z)
  (sm : single_move mv bias) (delta0 : 0 < delta_init) (cfgP : 0 < min_delta cfg <= max_delta cfg).

Lemma regrouped_proper (Km : key -> X * R * X -> prog (X * R * X * bool)) k s :
  (forall k s, proper (Km k s)) -> proper (regrouped Km k s).
Proof. by move=> h; apply: proper_bind. Qed.

Lemma mala_whole (ld : R -> X -> R) (log_H : R -> {ffun 'I_N.+1 -> X} -> X -> X -> R) (aux : bool) :
  (forall delta, 0 < delta ->
   if aux then (forall z, noise delta (- z) = noise delta z) /\ exists c, c != 0 /\ forall z, exp (ld delta z) = c * noise delta z
   else exists S : {ffun 'I_N.+1 -> X} -> R, forall (x : {ffun 'I_N.+1 -> X}) b phi,
     \sum_u noise delta (u - (x b + phi)) * \prod_(i | i != b) noise delta (x i - u) = S x * exp (log_H delta x (x b) phi)) ->
  sound_run (fun d f => mean_under (fun x => exp (log_pdf d x)) f) bias
  (viewed (@samples_of _ _ _ _) (sv_single_run get_data start (fun d x => (log_pdf d x, grad d x))
     (fun d delta => regrouped (fun key =>
        mala_kernel (log_pdf d) (grad d) (noise delta) (ld delta) (scale delta) (log_H delta) mv key aux))
     cfg delta_init adaptation)).
Proof.
move=> h; have fd := single_draws sm; have fb := single_bias sm.
apply: (@single_run_converge D X _ get_data start _ _ cfg delta_init adaptation (fun d x => exp (log_pdf d x)) bias 0) => //.
- by move=> d delta key s dp; apply: regrouped_proper => k s'; apply: mala_proper => //; exact: noiseP.
- by move=> d delta key x; exact: mala_coh.
- move=> d delta dp; have np := noiseP dp; have ng z := noise_gt0 z dp; case: sm => [[mm rel gm ->]|[-> ->]].
  + by apply: mala_settles => //; exact: h.
  + by apply: mala_settles_force => //; exact: h.
Qed.

Lemma tp1_whole (corr : R -> X -> X -> X -> R) (post_sampling : R -> key -> X -> prog {ffun 'I_N -> X}) (prior : X -> R)
    (post : R -> X -> X -> R) :
  (forall delta u z, 0 < delta -> 0 < post delta u z) -> (forall x, 0 < prior x) ->
  (forall delta key u, 0 < delta -> samples_indep (post_sampling delta key u) (fun _ => post delta u)) ->
  (forall delta u, 0 < delta -> exists Z, forall x, prior x * noise delta (u - x) = Z * post delta u x) ->
  (forall delta u x g, 0 < delta -> noise delta (u - x) * exp (corr delta u x g) = noise delta (u - (x + scale delta g))) ->
  sound_run (fun d f => mean_under (fun x => prior x * exp (log_pdf d x)) f) bias
  (viewed (@samples_of _ _ _ _) (sv_single_run get_data start (fun d x => (log_pdf d x, grad d x))
     (fun d delta => regrouped (tp1_kernel (log_pdf d) (grad d) (noise delta) (scale delta) mv (corr delta) (post_sampling delta)))
     cfg delta_init adaptation)).
Proof.
move=> h1 h2 h3 h4 h5; have fd := single_draws sm; have fb := single_bias sm.
apply: (@single_run_converge D X _ get_data start _ _ cfg delta_init adaptation (fun d x => prior x * exp (log_pdf d x)) bias 0) => //.
- move=> d delta key s dp; apply: regrouped_proper => k s'; apply: tp1_proper => //; first exact: noiseP.
  by move=> k' u; have [] := h3 delta k' u dp.
- by move=> d delta key x; exact: tp_coh.
- move=> d delta dp; have np := noiseP dp; have ng z := noise_gt0 z dp; case: sm => [[mm rel gm ->]|[-> ->]].
  + by apply: (@tp_settles1 X N (log_pdf d) (grad d) _ _ _ _ prior (post delta)) => // *; auto.
  + by apply: (@tp_settles_force1 X N (log_pdf d) (grad d) _ _ _ _ prior (post delta)) => // *; auto.
Qed.
End Single.

(** ** Example *)
Lemma ex_final_moves n' : final_move (@barker_move n'.+1) (fun=> 0) /\ final_move (@force_move n'.+1) (force_eps n'.+1).
Proof.
split; [left|by right]; have [_ _ h _] := mixing_contracts n'; split=> //.
by have [_ g _] := code_movers n'.
Qed.

Lemma ex_run_sound n' (m : nat) (G0 : bool -> bool -> R) (Gt : bool -> bool -> bool -> unit -> R)
    (stat : ('I_m.+1 -> option R) -> 'I_m.+1 -> option R) cfg delta_init adaptation
    backward : (0 < n')%N ->
  sound_run (fun d f => path_mean m (path_target (G0 d) (Gt d) (nseq m tt)) f) (fun=> 0)
    (viewed (@samples_of _ _ _ _) (sv_particle_run (fun key => draw key (fun _ : bool => half))
       (fun key d => do r <- kernel (@killing n') (@barker_move n'.+1) (ex_model n' (G0 d) (Gt d)) key
                       true (nseq m true) ord0 (nseq m ord0) (nseq m tt) (nseq m tt) true false; Ret r.1.1)
       (fun d _ key x0 xs b0 bs => drop_weights
          (kernel (@killing n') (@barker_move n'.+1) (ex_model n' (G0 d) (Gt d)) key x0 xs b0 bs
             (nseq m tt) (nseq m tt) backward true))
       stat cfg delta_init adaptation)).
Proof.
move=> n0; have [_ mk mb _] := mixing_contracts n'; have [_ dk db _] := code_draws n'; have [fb _] := ex_final_moves n'.
have st key d := @csmc_start bool n' m unit unit (ex_model n' (G0 d) (Gt d)) (@killing n') (@barker_move n'.+1) key
  true (nseq m true) ord0 (nseq m ord0) (nseq m tt) (nseq m tt) true.
have pr d : (forall key, proper (M0_rvs (ex_model n' (G0 d) (Gt d)) key)) /\
    (forall key xm p, proper (Mt_rvs (ex_model n' (G0 d) (Gt d)) key xm p)).
  by have [h1 _ h2 _] := @ex_markov n' (G0 d) (Gt d); split=> [k|k xm p]; [have [] := h1 k|have [] := h2 k xm p].
have hd key : proper (draw key (fun _ : bool => half)) by apply: proper_draw; exact: half_prob.
have sz T (x : T) : bool -> size (nseq m x) = m by move=> _; rewrite size_nseq.
have hs key d := st key d (proj1 (pr d)) (proj2 (pr d)) dk db (size_nseq _ _) (size_nseq _ _) (size_nseq _ _) (size_nseq _ _).
have b0 : (0 < #|bool_finType|)%N by rewrite card_bool.
exact (@csmc_run _ n' m _ stat cfg delta_init adaptation _ _ _ backward hd n0 mk dk fb bool_finType _ _ _
  (fun d => ex_model n' (G0 d) (Gt d)) _ _ _ _ (fun key d => proj1 (hs key d)) (fun key d => proj2 (hs key d))
  (fun d => ex_markov n' (G0 d) (Gt d)) (sz _ tt) (sz _ tt) b0).
Qed.
