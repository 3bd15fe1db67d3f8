(** * RunAccept: the moves and the acceptance rates recorded by the whole stochastic volatility experiment. *)
From Coq Require Import Reals Lra FunctionalExtensionality.
From mathcomp Require Import all_ssreflect all_algebra.
From Verif Require Import RInst Prog ProgTheory Resampling Spec Csmc CsmcInvariance CsmcSpecs AuxCsmc AuxFinal.
From Verif Require Import TpCsmc TpFinal Single SingleSpec Drivers DriverSpec DriverProofs Experiments.
From Verif Require Import ErgodicSpec ErgodicCsmc ErgodicSweep ErgodicFinal ErgodicTp ErgodicSingleSpec ErgodicSingle.
From Verif Require Import ProperSpec ProperProofs Runs RunSpec RunProofs RunFinal AcceptSpec AcceptProofs AcceptFinal AcceptSingle.
From Verif Require Import RunAcceptSpec.

Set Implicit Arguments.
Unset Strict Implicit.
Unset Printing Implicit Defensive.
Import GRing.Theory Num.Theory Order.TTheory.
Local Open Scope ring_scope.

(** ** The two forms of the bound *)
Lemma move_bound (bias : R -> R) c e n : (forall c, 0 <= c -> 0 <= bias c) -> 0 <= c -> 0 < e <= 1 ->
  0 < 2%:R * e / (3%:R * e + 16%:R) <= 1 /\
  16%:R * c ^+ 2 * (1 + 4%:R / e) / n%:R + 8%:R * c * (bias c / e)
  <= error_bound bias c (2%:R * e / (3%:R * e + 16%:R)) n.
Proof.
move=> b0 c0 /andP[e0 e1].
have d0 : 0 < 3%:R * e + 16%:R by rewrite addr_gt0 ?mulr_gt0 ?ltr0n.
have inv : (2%:R * e / (3%:R * e + 16%:R))^-1 = (3%:R * e + 16%:R) / (2%:R * e).
  by rewrite invf_div.
split.
  apply/andP; split; first by rewrite divr_gt0 ?mulr_gt0 ?ltr0n.
  rewrite ler_pdivr_mulr // mul1r; apply: ler_paddr; first exact: ler0n.
  by apply: ler_wpmul2r; rewrite ?ler_nat // ltW.
rewrite /error_bound; apply: ler_add.
  rewrite inv; have -> : 1 + 2%:R * ((3%:R * e + 16%:R) / (2%:R * e)) = 4%:R * (1 + 4%:R / e).
    by have h : e != 0 := lt0r_neq0 e0; toR; field; exact/eqP.
  rewrite (_ : 16%:R * c ^+ 2 * (1 + 4%:R / e) = 4%:R * c ^+ 2 * (4%:R * (1 + 4%:R / e))) //.
  by move: (1 + _) (c ^+ 2) => u v; toR; ring.
rewrite inv; have b1 := b0 c c0.
have -> : 4%:R * c * (bias c * ((3%:R * e + 16%:R) / (2%:R * e))) = 8%:R * c * (bias c / e) + (24%:R * c * (bias c / e) + 6%:R * c * bias c).
  by move: (bias c) => u; have h : e != 0 := lt0r_neq0 e0; toR; field; exact/eqP.
by rewrite ler_addl addr_ge0 ?mulr_ge0 ?ler0n ?invr_ge0 // ltW.
Qed.

Lemma nth_viewed (A B : Type) (g : A -> B) l i : nth [::] [seq [seq g a | a <- x] | x <- l] i = [seq g a | a <- nth [::] l i].
Proof. by elim: l i => [|x l IH] [|i] //=. Qed.

(** ** Trajectories *)
Lemma nth_changes (n' m : nat) (l : seq 'I_n'.+1) (t : 'I_m.+1) :
  nth false (changes (nseq m.+1 ord0) l) t = (nth ord0 l t != ord0).
Proof.
rewrite /changes; move: (m.+1) (nat_of_ord t) (ltn_ord t) => k i.
elim: k l i => // k IH [|b l] [|i] lt /=; rewrite ?eqxx //; [by rewrite eq_sym|exact: IH].
Qed.

Lemma acceptance_mean (X : finType) (n' m : nat) (target : X -> seq X -> R)
    (kern : key -> X -> seq X -> 'I_n'.+1 -> seq 'I_n'.+1 -> prog (seq X * seq 'I_n'.+1)) (t : 'I_m.+1) :
  move_mean m target kern (fun v => ((of_move m v).2 t)%:R) = acceptance m target kern t.
Proof.
rewrite /acceptance /move_mean; congr (path_mean _ _ _); apply: functional_extensionality => xs.
by apply: eq_E => r; rewrite /of_move /move_of [LHS]/= nth_changes.
Qed.

Section ParticleRun.
Variables (D : Type) (X : finType) (n' m : nat) (get_data : key -> prog D) (start : key -> D -> prog (seq X)).
Variable kern : D -> ('I_m.+1 -> R) -> key -> X -> seq X -> 'I_n'.+1 -> seq 'I_n'.+1 -> prog (seq X * seq 'I_n'.+1).
Variables (stat : ('I_m.+1 -> option R) -> 'I_m.+1 -> option R) (cfg : config) (delta_init : R) (adaptation : nat).
Variables (target : D -> X -> seq X -> R) (bias : R -> R).
Variable okd : R -> Prop.
Hypotheses (dataP : forall key, proper (get_data key)) (startP : forall key d, proper (start key d))
  (start_size : forall key d, always (fun xs => size xs = m.+1) (start key d))
  (kernP : forall d delta key x0 xs b0 bs, (forall t, okd (delta t)) -> proper (kern d delta key x0 xs b0 bs))
  (setP : forall d delta, (forall t, okd (delta t)) -> settles m (target d) (kern d delta) bias)
  (movP : forall d delta, (forall t, okd (delta t)) -> settles_moves m (target d) (kern d delta) bias)
  (bias0 : forall c, 0 <= c -> 0 <= bias c)
  (delta0 : okd delta_init) (adaptD : forall i a x, okd x -> okd (adapt_delta cfg i a x)).
Local Notation run := (sv_particle_run get_data start kern stat cfg delta_init adaptation).
Local Notation st := (seq X * ('I_m.+1 -> 'I_n'.+1))%type.
Local Notation ok := (fun (_ : D) (s : st) => size s.1 = m.+1).
Local Notation J := ('I_m.+1 -> bool).
Local Notation record := (record D ('I_m.+1 -> R) (seq X) J).
Local Notation mean a F := (move_mean m (target a.1) (kern a.1 a.2) (fun v => F (of_move m v))).

Lemma moves_rate d (delta : 'I_m.+1 -> R) : (forall t, okd (delta t)) -> exists2 e, 0 < e <= 1 &
  forall n key s (f : D * ('I_m.+1 -> R) -> seq X * J -> R) c, ok d s -> (0 < n)%N -> (forall d z, `|f d z| <= c) ->
  E (do out <- mcmc_sampling (indexed (kern d delta)) key s n 1;
     Ret (d, delta, if out is inl r then r else ([::], [::])))
    (fun a : record => let v := moves_of a in (average (f v.1) v.2 - mean v.1 (f v.1)) ^+ 2) <= error_bound bias c e n.
Proof.
move=> dp; have [e e01 he] := recorded_moves (setP d dp) (movP d dp).
pose e' : R := 2%:R * e / (3%:R * e + 16%:R); exists e'.
  by have [] := @move_bound bias 0 e 1 bias0 (lexx _) e01.
move=> n key [[|x0 xs] B] f c // [sx] n0 fc.
have c0 : 0 <= c by apply: le_trans (fc (d, delta) ([::], fun=> false)).
have [_] := @move_bound bias c e n bias0 c0 e01; apply: le_trans.
have := he key x0 xs B n 1%N (f (d, delta)) c sx isT n0 (fc _); rewrite addn0 divn1; apply: le_trans.
rewrite E_bind le_eqVlt; apply/orP; left; apply/eqP; rewrite mcmc_samplingE !E_bind; exact: eq_E.
Qed.

Lemma flags_rate d (delta : 'I_m.+1 -> R) : (forall t, okd (delta t)) -> exists2 e, 0 < e <= 1 &
  forall n key s (f : D * ('I_m.+1 -> R) -> J -> R) c, ok d s -> (0 < n)%N -> (forall d z, `|f d z| <= c) ->
  E (do out <- mcmc_sampling (indexed (kern d delta)) key s n 1;
     Ret (d, delta, if out is inl r then r else ([::], [::])))
    (fun a : record => let v := (a.1, a.2.2) in (average (f v.1) v.2 - mean v.1 (fun z => f v.1 z.2)) ^+ 2)
  <= error_bound bias c e n.
Proof.
move=> dp; have [e e01 he] := moves_rate d dp; exists e => // n key s f c oks n0 fc.
apply: le_trans (he n key s (fun a z => f a z.2) c oks n0 (fun d z => fc d z.2)).
rewrite le_eqVlt; apply/orP; left; apply/eqP; apply: eq_E_always.
apply: always_imp (sampled_sizes kern n d delta key s) => -[[d' delta'] [ss fs]] [/= s1 s2].
by rewrite /average size_zip s1 s2 minnn -{1}(@unzip2_zip _ _ ss fs) ?s1 ?s2 // big_map.
Qed.

Theorem particle_moves_run : sound_moves target kern bias run.
Proof.
split.
  apply: (@particle_viewed D X n' m get_data start kern stat cfg delta_init adaptation target bias okd dataP startP start_size kernP setP bias0 delta0 adaptD _ _ (@moves_of _ _ _ _) (fun d p => (d, p)) (fun a F => mean a F) ([::], fun=> false)) => //.
  - by move=> n a s1 s2; rewrite size_zip s1 s2 minnn.
  - exact: moves_rate.
have : sound_run (fun a F => mean a (fun z : seq X * J => F z.2)) bias (viewed (fun a : record => (a.1, a.2.2)) run).
  apply: (@particle_viewed D X n' m get_data start kern stat cfg delta_init adaptation target bias okd dataP startP start_size kernP setP bias0 delta0 adaptD _ _ (fun a : record => (a.1, a.2.2)) (fun d p => (d, p)) (fun a F => mean a (fun z : seq X * J => F z.2)) (fun=> false)) => //.
  exact: flags_rate.
case=> conv _ _ _ key K; have [e e01 he] := conv key K; exists e => // M b n i j t li lj n0.
have := he M b n i j (fun _ (z : J) => (z t)%:R) 1 li lj n0; rewrite expr1n !mulr1 => h.
apply: le_trans (h _); last by move=> _ z; case: (z t); rewrite ?normr1 ?normr0.
rewrite /viewed E_bind le_eqVlt; apply/orP; left; apply/eqP; apply: eq_E => out.
rewrite /of_chain /= nth_viewed -map_comp; congr (nth 0 _ j); apply: eq_map => a /=.
by rewrite acceptance_mean.
Qed.
End ParticleRun.

(** ** Single states *)
Section SingleRun.
Variables (D : Type) (X : finType) (C : Type) (get_data : key -> prog D) (start : key -> D -> prog X) (cached : D -> X -> C).
Variable kern : D -> R -> key -> X * C -> prog (X * C * bool).
Variables (cfg : config) (delta_init : R) (adaptation : nat) (target : D -> X -> R) (bias : R -> R) (x0 : X).
Hypotheses (dataP : forall key, proper (get_data key)) (startP : forall key d, proper (start key d))
  (kernP : forall d delta key s, 0 < delta -> proper (kern d delta key s))
  (cacheP : forall d delta key x, always (fun r => r.1.2 = cached d r.1.1) (kern d delta key (x, cached d x)))
  (movP : forall d delta, 0 < delta -> settles_positions (cached d) (kern d delta) (target d) bias)
  (bias0 : forall c, 0 <= c -> 0 <= bias c)
  (delta0 : 0 < delta_init) (cfgP : 0 < min_delta cfg <= max_delta cfg).
Local Notation run := (sv_single_run get_data start cached kern cfg delta_init adaptation).
Local Notation ok := (fun (d : D) (s : X * C) => s.2 = cached d s.1).
Local Notation record := (record D R X bool).
Local Notation mean a F := (position_mean (cached a.1) (kern a.1 a.2) (target a.1) (fun v => F (v.1.2, v.2))).

Lemma positions_rate d delta : 0 < delta -> exists2 e, 0 < e <= 1 &
  forall n key s (f : D * R -> X * bool -> R) c, ok d s -> (0 < n)%N -> (forall d z, `|f d z| <= c) ->
  E (do out <- tp_sampling (kern d delta) key s n 1; Ret (d, delta, if out is inl r then r else ([::], [::])))
    (fun a : record => let v := moves_of a in (average (f v.1) v.2 - mean v.1 (f v.1)) ^+ 2) <= error_bound bias c e n.
Proof.
move=> dp; have [e e01 he] := tp_loop_moves (movP d dp).
pose e' : R := 2%:R * e / (3%:R * e + 16%:R); exists e'.
  by have [] := @move_bound bias 0 e 1 bias0 (lexx _) e01.
move=> n key [x c1] f c /= -> n0 fc.
have c0 : 0 <= c by apply: le_trans (fc (d, delta) (x, false)).
have [_] := @move_bound bias c e n bias0 c0 e01; apply: le_trans.
have := he key x n 1%N (f (d, delta)) c isT n0 (fc _); rewrite addn0 divn1; apply: le_trans.
rewrite E_bind le_eqVlt; apply/orP; left; apply/eqP; rewrite tp_samplingE !E_bind; exact: eq_E.
Qed.

Lemma indicators_rate d delta : 0 < delta -> exists2 e, 0 < e <= 1 &
  forall n key s (f : D * R -> bool -> R) c, ok d s -> (0 < n)%N -> (forall d z, `|f d z| <= c) ->
  E (do out <- tp_sampling (kern d delta) key s n 1; Ret (d, delta, if out is inl r then r else ([::], [::])))
    (fun a : record => let v := (a.1, a.2.2) in (average (f v.1) v.2 - mean v.1 (fun z => f v.1 z.2)) ^+ 2)
  <= error_bound bias c e n.
Proof.
move=> dp; have [e e01 he] := positions_rate d dp; exists e => // n key s f c oks n0 fc.
apply: le_trans (he n key s (fun a z => f a z.2) c oks n0 (fun d z => fc d z.2)).
rewrite le_eqVlt; apply/orP; left; apply/eqP; apply: eq_E_always.
apply: always_imp (single_sizes kern n d delta key s) => -[[d' delta'] [ss fs]] [/= s1 s2].
by rewrite /average size_zip s1 s2 minnn -{1}(@unzip2_zip _ _ ss fs) ?s1 ?s2 // big_map.
Qed.

Theorem single_moves_run : sound_positions cached target kern bias run.
Proof.
split.
  apply: (@single_viewed D X C get_data start cached kern cfg delta_init adaptation bias dataP startP kernP cacheP bias0 delta0 cfgP
    _ _ (@moves_of _ _ _ _) (fun d p => (d, p)) (fun a F => mean a F) (x0, false)) => //.
  - by move=> n a s1 s2; rewrite size_zip s1 s2 minnn.
  - exact: positions_rate.
have : sound_run (fun a F => mean a (fun z : X * bool => F z.2)) bias (viewed (fun a : record => (a.1, a.2.2)) run).
  apply: (@single_viewed D X C get_data start cached kern cfg delta_init adaptation bias dataP startP kernP cacheP bias0 delta0 cfgP
    _ _ (fun a : record => (a.1, a.2.2)) (fun d p => (d, p)) (fun a F => mean a (fun z : X * bool => F z.2)) false) => //.
  exact: indicators_rate.
case=> conv _ _ _ key K; have [e e01 he] := conv key K; exists e => // M b n i j t li lj n0.
have := he M b n i j (fun _ (z : bool) => z%:R) 1 li lj n0; rewrite expr1n !mulr1 => h.
apply: le_trans (h _); last by move=> _ z; case: z; rewrite ?normr1 ?normr0.
rewrite /viewed !E_bind le_eqVlt; apply/orP; left; apply/eqP; apply: eq_E => out.
rewrite /of_chain /= !nth_viewed -!map_comp; congr (nth 0 _ j); apply: eq_map => a /=.
by rewrite average_map.
Qed.
End SingleRun.

(** ** The kernels of the code *)
Section Kernels.
Variables (D : Type) (n' m : nat) (get_data : key -> prog D).
Variables (stat : ('I_m.+1 -> option R) -> 'I_m.+1 -> option R) (cfg : config) (delta_init : R) (adaptation : nat).
Variables (rs : resampler n'.+1) (mv : mover n'.+1) (bias : R -> R) (backward : bool).
Hypotheses (dataP : forall key, proper (get_data key)) (n0 : (0 < n')%N) (mr : mixing_resampler rs)
  (rsP : draws_resampler rs) (fm : final_move mv bias).

Section Csmc.
Variables (X : finType) (start : key -> D -> prog (seq X)) (P Q : Type) (md : D -> model X n' P Q).
Variables (mu0 : D -> X -> R) (mut : D -> X -> P -> X -> R) (ps : D -> seq P) (qs : D -> seq Q).
Hypotheses (startP : forall key d, proper (start key d)) (start_size : forall key d, always (fun xs => size xs = m.+1) (start key d)).
Hypotheses (mk : forall d, markov_model (md d) (mu0 d) (mut d)) (szp : forall d, size (ps d) = m) (szq : forall d, size (qs d) = m)
  (X0 : (0 < #|X|)%N).

Lemma csmc_rates : (let kern := (fun d _ key x0 xs b0 bs => drop_weights (kernel rs mv (md d) key x0 xs b0 bs (ps d) (qs d) backward true)) in
   sound_moves (fun d => path_target (Gamma0 (md d)) (Gammat (md d)) (qs d)) kern bias
     (sv_particle_run get_data start kern stat cfg delta_init adaptation)).
Proof.
have fd := final_draws fm; have fb := final_bias fm.
apply: (@particle_moves_run D X n' m get_data start _ stat cfg delta_init adaptation
  (fun d => path_target (Gamma0 (md d)) (Gammat (md d)) (qs d)) bias (fun=> True)) => //.
- move=> d _ key x0 xs b0 bs _; apply: drop_proper; apply: kernel_proper => // [k|k xm p].
  + by have [h _ _ _] := mk d; have [h' _ _] := h k.
  + by have [_ _ h _] := mk d; have [h' _ _] := h k xm p.
- move=> d _ _; rewrite -(szq d); case: fm => [[mm gm ->]|[-> ->]].
  + by apply: (csmc_settles backward (mk d)); rewrite ?szp ?szq.
  + by apply: (csmc_settles_force backward (mk d)); rewrite ?szp ?szq.
- by move=> d _ _; rewrite -(szq d); apply: (csmc_moves backward n0 mr rsP fm (mk d)); rewrite ?szp ?szq.
Qed.
End Csmc.

Section Three.
Variables (X : finZmodType) (start : key -> D -> prog (seq X)) (Q setting : Type) (noise ld : setting -> X -> R).
Variables (scale : setting -> X -> X) (logH : setting -> {ffun 'I_n'.+1 -> X} -> X -> X -> R).
Variables (G0 : D -> X -> R) (Gt : D -> X -> X -> Q -> R) (g0 : D -> X -> X) (gt : D -> X -> X -> Q -> X) (qs : D -> seq Q).
Variable set : R -> setting.
Hypotheses (startP : forall key d, proper (start key d)) (start_size : forall key d, always (fun xs => size xs = m.+1) (start key d)).
Hypotheses (noiseP : forall s, prob_vec (noise s)) (noise_gt0 : forall s z, 0 < noise s z) (szq : forall d, size (qs d) = m).
Local Notation mean := (fun d f => path_mean m (path_target (G0 d) (Gt d) (qs d)) f).
Local Notation first delta := (set (delta ord0)).
Local Notation others delta := [seq set (delta (lift ord0 t)) | t <- enum 'I_m].


Lemma rw_rates : (forall s z, noise s (- z) = noise s z) -> (let kern := (fun d delta key x0 xs b0 bs => drop_weights
        (rw_kernel noise rs mv (G0 d) (Gt d) xpredT key x0 xs b0 bs (first delta) (others delta) (qs d) backward)) in
   sound_moves (fun d => path_target (G0 d) (Gt d) (qs d)) kern bias
     (sv_particle_run get_data start kern stat cfg delta_init adaptation)).
Proof.
move=> ev; have fd := final_draws fm; have fb := final_bias fm.
apply: (@particle_moves_run D X n' m get_data start _ stat cfg delta_init adaptation
  (fun d => path_target (G0 d) (Gt d) (qs d)) bias (fun=> True)) => //.
- by move=> d delta key x0 xs b0 bs _; apply: drop_proper; exact: rw_proper.
- move=> d delta _; have := others_size set szq delta d; move: (first delta) (others delta) => s0 ss so; rewrite -(szq d).
  case: fm => [[mm gm ->]|[-> ->]].
  + exact: rw_settles.
  + exact: rw_settles_force.
- move=> d delta _; have := others_size set szq delta d; move: (first delta) (others delta) => s0 ss so; rewrite -(szq d).
  exact: rw_moves.
Qed.

Lemma l_rates :
  (forall s, exists S : {ffun 'I_n'.+1 -> X} -> R, forall (x : {ffun 'I_n'.+1 -> X}) b phi,
     \sum_u noise s (u - (x b + phi)) * \prod_(i | i != b) noise s (x i - u) = S x * exp (logH s x phi (x b))) ->
  (forall s x a phi y, logH s (moved a x) phi y = logH s x phi y) -> (let kern := (fun d delta key x0 xs b0 bs => drop_weights
        (l_kernel noise scale logH rs mv (G0 d) (Gt d) (g0 d) (gt d) key x0 xs b0 bs (first delta) (others delta) (qs d) backward)) in
   sound_moves (fun d => path_target (G0 d) (Gt d) (qs d)) kern bias
     (sv_particle_run get_data start kern stat cfg delta_init adaptation)).
Proof.
move=> cor lm; have fd := final_draws fm; have fb := final_bias fm.
apply: (@particle_moves_run D X n' m get_data start _ stat cfg delta_init adaptation
  (fun d => path_target (G0 d) (Gt d) (qs d)) bias (fun=> True)) => //.
- by move=> d delta key x0 xs b0 bs _; apply: drop_proper; exact: l_proper.
- move=> d delta _; have := others_size set szq delta d; move: (first delta) (others delta) => s0 ss so; rewrite -(szq d).
  case: fm => [[mm gm ->]|[-> ->]].
  + exact: l_settles.
  + exact: l_settles_force.
- move=> d delta _; have := others_size set szq delta d; move: (first delta) (others delta) => s0 ss so; rewrite -(szq d).
  exact: l_moves.
Qed.

Lemma al_rates : (forall s, exists c, c != 0 /\ forall z, exp (ld s z) = c * noise s z) -> (let kern := (fun d delta key x0 xs b0 bs => drop_weights
        (al_kernel noise ld scale rs mv (G0 d) (Gt d) (g0 d) (gt d) key x0 xs b0 bs (first delta) (others delta) (qs d) backward)) in
   sound_moves (fun d => path_target (G0 d) (Gt d) (qs d)) kern bias
     (sv_particle_run get_data start kern stat cfg delta_init adaptation)).
Proof.
move=> ldP; have fd := final_draws fm; have fb := final_bias fm.
apply: (@particle_moves_run D X n' m get_data start _ stat cfg delta_init adaptation
  (fun d => path_target (G0 d) (Gt d) (qs d)) bias (fun=> True)) => //.
- by move=> d delta key x0 xs b0 bs _; apply: drop_proper; exact: al_proper.
- move=> d delta _; have := others_size set szq delta d; move: (first delta) (others delta) => s0 ss so; rewrite -(szq d).
  case: fm => [[mm gm ->]|[-> ->]].
  + exact: al_settles.
  + exact: al_settles_force.
- move=> d delta _; have := others_size set szq delta d; move: (first delta) (others delta) => s0 ss so; rewrite -(szq d).
  exact: al_moves.
Qed.
End Three.

Section Tp.
Variables (X : finZmodType) (start : key -> D -> prog (seq X)) (Q setting : Type) (set : R -> setting).
Variables (noise0 : setting -> X -> R) (noise : setting * Q -> X -> R) (scale0 : setting -> X -> X) (scale : setting * Q -> X -> X).
Variables (pnoise0 : setting -> X -> R) (pnoise : setting * Q -> X -> R) (mean0 : setting -> X -> X) (mean : setting * Q -> X -> X -> X).
Variables (prior0 : D -> X -> R) (prior : D -> X -> X -> Q -> R) (r0 : D -> X -> R) (rt : D -> X -> X -> Q -> R).
Variables (g0 : D -> X -> X) (gt : D -> X -> X -> Q -> X) (qs : D -> seq Q).
Variables (logH0 : setting -> {ffun 'I_n'.+1 -> X} -> X -> 'I_n'.+1 -> R)
  (logH : setting * Q -> {ffun 'I_n'.+1 -> X} -> {ffun 'I_n'.+1 -> X} -> X -> 'I_n'.+1 -> R).
Hypotheses (startP : forall key d, proper (start key d)) (start_size : forall key d, always (fun xs => size xs = m.+1) (start key d)).
Hypotheses (szq : forall d, size (qs d) = m).
Local Notation first delta := (set (delta ord0)).
Local Notation others delta d := (zip [seq set (delta (lift ord0 t)) | t <- enum 'I_m] (qs d)).


Lemma tp_rates :
  (forall s, prob_vec (noise0 s)) -> (forall q, prob_vec (noise q)) ->
  (forall s, prob_vec (pnoise0 s)) -> (forall q, prob_vec (pnoise q)) ->
  (forall s z, 0 < noise0 s z) -> (forall q z, 0 < noise q z) -> (forall s z, 0 < pnoise0 s z) -> (forall q z, 0 < pnoise q z) ->
  (forall s (x : {ffun 'I_n'.+1 -> X}) (a b : 'I_n'.+1) phi, logH0 s (moved a x) phi (b + a) = logH0 s x phi b) ->
  (forall q (xm x : {ffun 'I_n'.+1 -> X}) (a b : 'I_n'.+1) phi, logH q (moved a xm) (moved a x) phi (b + a) = logH q xm x phi b) ->
  (forall s, exists S : {ffun 'I_n'.+1 -> X} -> R, forall (x : {ffun 'I_n'.+1 -> X}) b phi,
     \sum_u noise0 s (u - (x b + phi)) * \prod_(i | i != b) pnoise0 s (x i - mean0 s u) = S x * exp (logH0 s x phi b)) ->
  (forall q (xm : {ffun 'I_n'.+1 -> X}), exists S : {ffun 'I_n'.+1 -> X} -> R, forall (x : {ffun 'I_n'.+1 -> X}) b phi,
     \sum_u noise q (u - (x b + phi)) * \prod_(i | i != b) pnoise q (x i - mean q (xm i) u) = S x * exp (logH q xm x phi b)) ->
  (let kern := (fun d delta key x0 xs b0 bs => drop_weights
        (tp_kernel (noise0 (first delta)) noise (scale0 (first delta)) scale (pnoise0 (first delta)) pnoise
           (mean0 (first delta)) mean (prior0 d) (fun x y q => prior d x y q.2) (r0 d) (fun x y q => rt d x y q.2)
           (g0 d) (fun x y q => gt d x y q.2) (logH0 (first delta)) logH rs mv key x0 xs b0 bs (others delta d) backward)) in
   sound_moves (fun d => path_target (fun x => prior0 d x + r0 d x) (fun x y q => prior d x y q + rt d x y q) (qs d)) kern bias
     (sv_particle_run get_data start kern stat cfg delta_init adaptation)).
Proof.
move=> h1 h2 h3 h4 h5 h6 h7 h8 h9 h10 h11 h12; have fd := final_draws fm; have fb := final_bias fm.
apply: (@particle_moves_run D X n' m get_data start _ stat cfg delta_init adaptation
  (fun d => path_target (fun x => prior0 d x + r0 d x) (fun x y q => prior d x y q + rt d x y q) (qs d)) bias (fun=> True)) => //.
- by move=> d delta key x0 xs b0 bs _; apply: drop_proper; exact: tp_proper.
- move=> d delta _.
  have : size [seq set (delta (lift ord0 t)) | t <- enum 'I_m] = m by rewrite size_map size_enum_ord.
  move: (first delta) [seq set (delta (lift ord0 t)) | t <- enum 'I_m] => s0 ss so.
  rewrite -(zip_target prior0 prior r0 rt szq d so); have sz : size (zip ss (qs d)) = m by rewrite size_zip so szq minnn.
  move: (zip ss (qs d)) sz => l sl; rewrite -sl.
  case: fm => [[mm gm ->]|[-> ->]].
  + exact: tp_settles.
  + exact: tp_settles_force.
- move=> d delta _.
  have : size [seq set (delta (lift ord0 t)) | t <- enum 'I_m] = m by rewrite size_map size_enum_ord.
  move: (first delta) [seq set (delta (lift ord0 t)) | t <- enum 'I_m] => s0 ss so.
  rewrite -(zip_target prior0 prior r0 rt szq d so); have sz : size (zip ss (qs d)) = m by rewrite size_zip so szq minnn.
  move: (zip ss (qs d)) sz => l sl; rewrite -sl.
  exact: tp_moves.
Qed.
End Tp.
End Kernels.

Section Single.
Variables (D : Type) (X : finZmodType) (N : nat) (get_data : key -> prog D) (start : key -> D -> prog X).
Variables (cfg : config) (delta_init : R) (adaptation : nat) (mv : mover N.+1) (bias : R -> R).
Variables (log_pdf : D -> X -> R) (grad : D -> X -> X) (noise : R -> X -> R) (scale : R -> X -> X).
Hypotheses (dataP : forall key, proper (get_data key)) (startP : forall key d, proper (start key d)) (N0 : (0 < N)%N)
  (noiseP : forall delta, 0 < delta -> prob_vec (noise delta)) (noise_gt0 : forall delta z, 0 < delta -> 0 < noise delta z)
  (sm : single_move mv bias) (delta0 : 0 < delta_init) (cfgP : 0 < min_delta cfg <= max_delta cfg).


Lemma mala_rates (ld : R -> X -> R) (log_H : R -> {ffun 'I_N.+1 -> X} -> X -> X -> R) (aux : bool) :
  (forall delta, 0 < delta ->
   if aux then (forall z, noise delta (- z) = noise delta z) /\ exists c, c != 0 /\ forall z, exp (ld delta z) = c * noise delta z
   else exists S : {ffun 'I_N.+1 -> X} -> R, forall (x : {ffun 'I_N.+1 -> X}) b phi,
     \sum_u noise delta (u - (x b + phi)) * \prod_(i | i != b) noise delta (x i - u) = S x * exp (log_H delta x (x b) phi)) ->
  (let kern := (fun d delta => regrouped (fun key =>
        mala_kernel (log_pdf d) (grad d) (noise delta) (ld delta) (scale delta) (log_H delta) mv key aux)) in
   sound_positions (fun d x => (log_pdf d x, grad d x)) (fun d x => exp (log_pdf d x)) kern bias
     (sv_single_run get_data start (fun d x => (log_pdf d x, grad d x)) kern cfg delta_init adaptation)).
Proof.
move=> h; have fd := single_draws sm; have fb := single_bias sm.
apply: (@single_moves_run D X _ get_data start _ _ cfg delta_init adaptation (fun d x => exp (log_pdf d x)) bias 0) => //.
- by move=> d delta key s dp; apply: regrouped_proper => k s'; apply: mala_proper => //; exact: noiseP.
- by move=> d delta key x; exact: mala_coh.
- by move=> d delta dp; apply: mala_positions => //; [exact: noiseP|move=> z; exact: noise_gt0|exact: h].
Qed.

Lemma tp1_rates (corr : R -> X -> X -> X -> R) (post_sampling : R -> key -> X -> prog {ffun 'I_N -> X}) (prior : X -> R)
    (post : R -> X -> X -> R) :
  (forall delta u z, 0 < delta -> 0 < post delta u z) -> (forall x, 0 < prior x) ->
  (forall delta key u, 0 < delta -> samples_indep (post_sampling delta key u) (fun _ => post delta u)) ->
  (forall delta u, 0 < delta -> exists Z, forall x, prior x * noise delta (u - x) = Z * post delta u x) ->
  (forall delta u x g, 0 < delta -> noise delta (u - x) * exp (corr delta u x g) = noise delta (u - (x + scale delta g))) ->
  (let kern := (fun d delta => regrouped (tp1_kernel (log_pdf d) (grad d) (noise delta) (scale delta) mv (corr delta) (post_sampling delta))) in
   sound_positions (fun d x => (log_pdf d x, grad d x)) (fun d x => prior x * exp (log_pdf d x)) kern bias
     (sv_single_run get_data start (fun d x => (log_pdf d x, grad d x)) kern cfg delta_init adaptation)).
Proof.
move=> h1 h2 h3 h4 h5; have fd := single_draws sm; have fb := single_bias sm.
apply: (@single_moves_run D X _ get_data start _ _ cfg delta_init adaptation (fun d x => prior x * exp (log_pdf d x)) bias 0) => //.
- move=> d delta key s dp; apply: regrouped_proper => k s'; apply: tp1_proper => //; first exact: noiseP.
  by move=> k' u; have [] := h3 delta k' u dp.
- by move=> d delta key x; exact: tp_coh.
- by move=> d delta dp; apply: (@tp_positions X N _ _ _ _ mv bias N0 _ _ sm _ _ prior (post delta)) => // *; auto.
Qed.
End Single.


(** ** Example *)
Lemma ex_rates_sound n' (m : nat) (G0 : bool -> bool -> R) (Gt : bool -> bool -> bool -> unit -> R)
    (stat : ('I_m.+1 -> option R) -> 'I_m.+1 -> option R) cfg delta_init adaptation backward : (0 < n')%N ->
  let kern := fun d _ key x0 xs b0 bs => drop_weights
    (kernel (@killing n') (@barker_move n'.+1) (ex_model n' (G0 d) (Gt d)) key x0 xs b0 bs
       (nseq m tt) (nseq m tt) backward true) in
  sound_moves (fun d => path_target (G0 d) (Gt d) (nseq m tt)) kern (fun=> 0)
    (sv_particle_run (fun key => draw key (fun _ : bool => half))
       (fun key d => do r <- kernel (@killing n') (@barker_move n'.+1) (ex_model n' (G0 d) (Gt d)) key
                       true (nseq m true) ord0 (nseq m ord0) (nseq m tt) (nseq m tt) true false; Ret r.1.1)
       kern stat cfg delta_init adaptation).
Proof.
move=> n0; have [_ mk mb _] := mixing_contracts n'; have [_ dk db _] := code_draws n'; have [fb _] := ex_final_moves n'.
have st key d := @csmc_start bool n' m unit unit (ex_model n' (G0 d) (Gt d)) (@killing n') (@barker_move n'.+1) key
  true (nseq m true) ord0 (nseq m ord0) (nseq m tt) (nseq m tt) true.
have pr d : (forall key, proper (M0_rvs (ex_model n' (G0 d) (Gt d)) key)) /\
    (forall key xm p, proper (Mt_rvs (ex_model n' (G0 d) (Gt d)) key xm p)).
  by have [h1 _ h2 _] := @ex_markov n' (G0 d) (Gt d); split=> [k|k xm p]; [have [] := h1 k|have [] := h2 k xm p].
have hd key : proper (draw key (fun _ : bool => half)) by apply: proper_draw; exact: half_prob.
have sz T (x : T) : bool -> size (nseq m x) = m by move=> _; rewrite size_nseq.
have hs key d := st key d (proj1 (pr d)) (proj2 (pr d)) dk db (size_nseq _ _) (size_nseq _ _) (size_nseq _ _) (size_nseq _ _).
have b0 : (0 < #|bool_finType|)%N by rewrite card_bool.
exact (@csmc_rates _ n' m _ stat cfg delta_init adaptation _ _ _ backward hd n0 mk dk fb bool_finType _ _ _
  (fun d => ex_model n' (G0 d) (Gt d)) _ _ _ _ (fun key d => proj1 (hs key d)) (fun key d => proj2 (hs key d))
  (fun d => ex_markov n' (G0 d) (Gt d)) (sz _ tt) (sz _ tt) b0).
Qed.
