(** * ErgodicFinal: final forms for C60-C62. *)
From Coq Require Import Reals Lra FunctionalExtensionality.
From mathcomp Require Import all_ssreflect all_algebra.
From Verif Require Import RInst Prog ProgTheory Resampling Spec ResamplingProofs MoveProofs KillingProofs ResamplingSpecs.
From Verif Require Import Csmc CsmcInvariance CsmcSpecs CsmcFinal AuxCsmc AuxFinal DriverSpec Drivers DriverProofs.
From Verif Require Import ErgodicSpec ErgodicTheory ErgodicContracts ErgodicChain ErgodicCsmc ErgodicSweep.

Set Implicit Arguments.
Unset Strict Implicit.
Unset Printing Implicit Defensive.
Import GRing.Theory Num.Theory Order.TTheory.
Local Open Scope ring_scope.

(** ** Contracts *)
Definition mixing_resampler (n' : nat) (rs : resampler n'.+1) : Prop :=
  [/\ good_resampler rs, rotates_anc (fun key w i j => rs key w i j true),
      spreads (fun key w i j => rs key w i j true)
    & forall key w i j, always (fun A : {ffun 'I_n'.+1 -> 'I_n'.+1} => A j = i) (rs key w i j true)].
Definition mixing_mover (n' : nat) (mv : mover n'.+1) : Prop :=
  [/\ rotates_move (index_of mv), leaves_index (index_of mv) & forall key w k, prob_vec w -> proper (mv key w k)].

Lemma barker_proper n key (w : 'I_n -> R) k : prob_vec w -> proper (barker_move key w k).
Proof. by move=> pw; apply: proper_bind => //; apply: proper_draw; exact: cat_prob. Qed.

Lemma force_proper n key (w : 'I_n.+1 -> R) k : prob_vec w -> proper (force_move key w k).
Proof.
move=> pw; apply: proper_bind => [|i]; first by apply: proper_draw; apply: cat_prob; exact: rest_prob.
apply: proper_bind => // ; apply: proper_draw.
have /andP [p0 p1] := prob_lt_01 (1 - w i) (1 - w k).
by split=> [[]|]; rewrite ?subr_ge0 // big_bool /= addrC subrK.
Qed.

Lemma mixing_contracts n' :
  [/\ mixing_resampler (@multinomial n'.+1), mixing_resampler (@killing n'),
      mixing_mover (@barker_move n'.+1) & mixing_mover (@force_move n'.+1)].
Proof.
have [g1 g2 _] := contracts n'; split; split=> //.
- exact: multinomial_rotates.
- exact: multinomial_spreads.
- by move=> *; exact: multinomial_keep.
- exact: killing_rotates.
- exact: killing_spreads.
- by move=> *; exact: killing_keep.
- exact: barker_rotates.
- exact: barker_leaves.
- exact: barker_proper.
- exact: force_rotates.
- exact: force_leaves.
- exact: force_proper.
Qed.

(** ** From invariance to the hypothesis of the chains *)
Lemma exact_near (X : finType) n m target (kern : X -> seq X -> 'I_n -> seq 'I_n -> prog (seq X * seq 'I_n)) c :
  leaves_invariant m target kern -> nearly_invariant m target kern c (0 * c).
Proof.
move=> inv f fc; rewrite inv subrr normr0 /traj_sum.
by rewrite big1 // => x0 _; rewrite big1 // => b0 _; rewrite big1 // => xs _; rewrite big1 // => bs _; rewrite mul0r mulr0.
Qed.

Definition force_d (n : nat) : R := 4%:R * Num.min (exp (- n%:R)) (1 / IZR 1000000000000).
Lemma force_dE n c : force_eps n c = force_d n * c.
Proof. by rewrite /force_eps /force_d mulrAC. Qed.
Lemma force_d_ge0 n : 0 <= force_d n.
Proof.
apply: mulr_ge0; first exact: ler0n; rewrite le_minr ltW /=; last by apply/RltE; exact: exp_pos.
by apply: divr_ge0 => //; apply/RleE; exact: IZR_le.
Qed.

(** ** csmc *)
Section Csmc.
Variables (X : finType) (n' : nat) (P Q : Type) (md : model X n' P Q) (mu0 : X -> R) (mut : X -> P -> X -> R).
Variables (rs : resampler n'.+1) (ps : seq P) (qs : seq Q) (backward : bool).
Hypotheses (mk : markov_model md mu0 mut) (mr : mixing_resampler rs) (szp : size ps = size qs).
Hypotheses (n0 : (0 < n')%N) (X0 : (0 < #|X|)%N).

Lemma csmc_settles mv : mixing_mover mv -> good_mover mv ->
  settles (size qs) (path_target (Gamma0 md) (Gammat md) qs)
    (fun key x0 xs b0 bs => drop_weights (kernel rs mv md key x0 xs b0 bs ps qs backward true)) (fun=> 0).
Proof.
case: mr => gr rot spr _ [mrot lea mpr] gm.
apply: (@csmc_settles_near X n' P Q md mu0 mut rs mv ps qs backward _ _ _ _ _ _ _ _ _ 0) => //; [exact: markov_rotating|by move=> c; rewrite mul0r|].
by move=> key c; apply: exact_near; exact: csmc_markov mk gr gm szp.
Qed.

Lemma csmc_settles_force :
  settles (size qs) (path_target (Gamma0 md) (Gammat md) qs)
    (fun key x0 xs b0 bs => drop_weights (kernel rs (@force_move _) md key x0 xs b0 bs ps qs backward true))
    (force_eps n'.+1).
Proof.
case: mr => gr rot spr _; have [_ _ _ [mrot lea mpr]] := mixing_contracts n'.
apply: (@csmc_settles_near X n' P Q md mu0 mut rs (@force_move _) ps qs backward _ _ _ _ _ _ _ _ _ (force_d n'.+1)) => //.
- exact: markov_rotating.
- exact: force_d_ge0.
- by move=> c; exact: force_dE.
- by move=> key c f fc; rewrite -force_dE; exact: csmc_force mk gr szp fc.
Qed.
End Csmc.

(** ** rw_csmc, l_csmc_f, al_csmc_f *)
Section Three.
Variables (X : finZmodType) (n' : nat) (Q setting : Type) (noise ld : setting -> X -> R).
Variables (scale : setting -> X -> X) (logH : setting -> {ffun 'I_n'.+1 -> X} -> X -> X -> R).
Variables (rs : resampler n'.+1) (G0 : X -> R) (Gt : X -> X -> Q -> R) (g0 : X -> X) (gt : X -> X -> Q -> X).
Variables (s0 : setting) (ss : seq setting) (qs : seq Q) (backward : bool).
Hypotheses (noiseP : forall s, prob_vec (noise s)) (noise_gt0 : forall s z, 0 < noise s z).
Hypotheses (mr : mixing_resampler rs) (sz : size ss = size qs) (n0 : (0 < n')%N).

Local Notation rwk mv := (fun key x0 xs b0 bs =>
  drop_weights (rw_kernel noise rs mv G0 Gt xpredT key x0 xs b0 bs s0 ss qs backward)).
Local Notation lk mv := (fun key x0 xs b0 bs =>
  drop_weights (l_kernel noise scale logH rs mv G0 Gt g0 gt key x0 xs b0 bs s0 ss qs backward)).
Local Notation alk mv := (fun key x0 xs b0 bs =>
  drop_weights (al_kernel noise ld scale rs mv G0 Gt g0 gt key x0 xs b0 bs s0 ss qs backward)).

Lemma rw_settles mv : mixing_mover mv -> good_mover mv -> (forall s z, noise s (- z) = noise s z) ->
  settles (size qs) (path_target G0 Gt qs) (rwk mv) (fun=> 0).
Proof.
case: mr => gr rot spr kp [mrot lea mpr] gm ev.
apply: (@rw_settles_near X n' Q setting noise noise (fun _ x => x) (fun _ _ _ _ => 0) rs mv G0 Gt id (fun x _ _ => x) s0 ss qs backward
  _ _ _ _ _ _ _ _ _ _ _ 0) => // [c|key c].
  by rewrite mul0r.
by apply: exact_near; exact: rw_inv.
Qed.

Lemma rw_settles_force : (forall s z, noise s (- z) = noise s z) ->
  settles (size qs) (path_target G0 Gt qs) (rwk (@force_move _)) (force_eps n'.+1).
Proof.
case: mr => gr rot spr kp ev; have [_ _ _ [mrot lea mpr]] := mixing_contracts n'.
apply: (@rw_settles_near X n' Q setting noise noise (fun _ x => x) (fun _ _ _ _ => 0) rs (@force_move _) G0 Gt id (fun x _ _ => x) s0 ss qs backward
  _ _ _ _ _ _ _ _ _ _ _ (force_d n'.+1)) => //.
- exact: force_d_ge0.
- by move=> c; exact: force_dE.
- by move=> key c; rewrite -force_dE; exact: rw_near.
Qed.

Hypothesis cor : forall s, exists S : {ffun 'I_n'.+1 -> X} -> R, forall (x : {ffun 'I_n'.+1 -> X}) b phi,
     \sum_u noise s (u - (x b + phi)) * \prod_(i | i != b) noise s (x i - u)
     = S x * exp (logH s x phi (x b)).
Hypothesis logHM : forall s x a phi y, logH s (moved a x) phi y = logH s x phi y.

Lemma l_settles mv : mixing_mover mv -> good_mover mv ->
  settles (size qs) (path_target G0 Gt qs) (lk mv) (fun=> 0).
Proof.
case: mr => gr rot spr kp [mrot lea mpr] gm.
apply: (@l_settles_near X n' Q setting noise noise scale logH rs mv G0 Gt g0 gt s0 ss qs backward
  _ _ _ _ _ _ _ _ _ _ _ _ 0) => // [c|key c].
  by rewrite mul0r.
by apply: exact_near; exact: l_inv.
Qed.

Lemma l_settles_force : settles (size qs) (path_target G0 Gt qs) (lk (@force_move _)) (force_eps n'.+1).
Proof.
case: mr => gr rot spr kp; have [_ _ _ [mrot lea mpr]] := mixing_contracts n'.
apply: (@l_settles_near X n' Q setting noise noise scale logH rs (@force_move _) G0 Gt g0 gt s0 ss qs backward
  _ _ _ _ _ _ _ _ _ _ _ _ (force_d n'.+1)) => //.
- exact: force_d_ge0.
- by move=> c; exact: force_dE.
- by move=> key c; rewrite -force_dE; exact: l_near.
Qed.

Hypothesis ldP : forall s, exists c, c != 0 /\ forall z, exp (ld s z) = c * noise s z.

Lemma al_settles mv : mixing_mover mv -> good_mover mv ->
  settles (size qs) (path_target G0 Gt qs) (alk mv) (fun=> 0).
Proof.
case: mr => gr rot spr kp [mrot lea mpr] gm.
apply: (@al_settles_near X n' Q setting noise ld scale (fun _ _ _ _ => 0) rs mv G0 Gt g0 gt s0 ss qs backward
  _ _ _ _ _ _ _ _ _ _ _ 0) => // [c|key c].
  by rewrite mul0r.
by apply: exact_near; exact: al_inv.
Qed.

Lemma al_settles_force : settles (size qs) (path_target G0 Gt qs) (alk (@force_move _)) (force_eps n'.+1).
Proof.
case: mr => gr rot spr kp; have [_ _ _ [mrot lea mpr]] := mixing_contracts n'.
apply: (@al_settles_near X n' Q setting noise ld scale (fun _ _ _ _ => 0) rs (@force_move _) G0 Gt g0 gt s0 ss qs backward
  _ _ _ _ _ _ _ _ _ _ _ (force_d n'.+1)) => //.
- exact: force_d_ge0.
- by move=> c; exact: force_dE.
- by move=> key c; rewrite -force_dE; exact: al_near.
Qed.
End Three.

(** ** The sampling loop *)
Lemma above (x : R) : exists N : nat, x < N%:R.
Proof.
exists (Z.to_nat (up (Rabs x))); rewrite RnatE; apply/RltE; have [h _] := archimed (Rabs x).
have h0 := Rabs_pos x; have h1 := Rle_abs x.
have z0 : Z.le Z0 (up (Rabs x)) by apply: le_IZR; apply: Rlt_le; apply: Rle_lt_trans h0 h.
rewrite INR_IZR_INZ Z2Nat.id //; exact: Rle_lt_trans h1 h.
Qed.

Section Loop.
Variables (X : finType) (I : eqType) (m : nat) (target : X -> seq X -> R) (bias : R -> R).
Variable kern : key -> X -> seq X -> I -> seq I -> prog (seq X * seq I).

Lemma visited_indexed keys (s : seq X) (B : 'I_m.+1 -> I) (F : seq (seq X) -> R) :
  (forall key x0 xs b0 bs, size xs = m -> size bs = m ->
     always (fun r => size r.1 = m.+1 /\ size r.2 = m.+1) (kern key x0 xs b0 bs)) ->
  size s = m.+1 ->
  E (visited (indexed kern) keys (s, B)) (fun l => F [seq x.1 | x <- l])
  = E (visited (on_pairs kern) keys (s, [seq B t | t <- enum 'I_m.+1])) (fun l => F [seq x.1 | x <- l]).
Proof.
move=> sizes; elim: keys s B F => [|k keys IH] s B F ss //=.
have EI h : E (indexed kern k (s, B)) h
    = E (on_pairs kern k (s, [seq B t | t <- enum 'I_m.+1])) (fun r => h (r.1, fun t => nth (B t) r.2 t)).
  by rewrite /indexed E_bind.
rewrite [LHS]E_bind [RHS]E_bind {}EI.
case: s ss => // x0 xs [sx].
have := size_map B (enum 'I_m.+1); rewrite size_enum_ord; case: [seq B t | t <- _] => // b0 bs [sb] /=.
apply: eq_E_always; apply: always_imp (sizes k x0 xs b0 bs sx sb) => -[zs cs] /= [s1 s2].
rewrite !E_bind /= (IH zs _ (fun l => F (zs :: l)) s1); congr (E (visited _ _ (_, _)) _).
apply: (@eq_from_nth _ b0); rewrite size_map size_enum_ord // => i lt.
by rewrite (nth_map ord0) ?size_enum_ord // nth_enum_ord //; apply: set_nth_default; rewrite s2.
Qed.

Lemma loop_averages : settles m target kern bias ->
  exists2 e, 0 < e <= 1 &
  forall key x0 xs (B : 'I_m.+1 -> I) n k f c, size xs = m -> (0 < k)%N -> (0 < n)%N -> (forall xs, `|f xs| <= c) ->
    E (mcmc_sampling (indexed kern) key (x0 :: xs, B) n k)
      (fun out => if out is inl r then (average f r.1 - path_mean m target f) ^+ 2 else 0)
    <= 4%:R * c ^+ 2 * (1 + 2%:R / e) / ((n + k.-1) %/ k)%:R + 4%:R * c * (bias c / e).
Proof.
case=> sizes [_ [e e01 [_ av]]]; exists e => // key x0 xs B n k f c sx k0 n0 fc.
rewrite mcmc_samplingE E_bind /= (negbTE (_ : k != 0%N)) -?lt0n //=.
have th (l : seq (seq X)) d : thinned d k l = thinned [::] k l by rewrite -!everyE.
have := @visited_indexed [seq split key i | i <- iota 0 n] (x0 :: xs) B
  (fun l => (average f (thinned [::] k l) - path_mean m target f) ^+ 2) sizes (congr1 S sx).
under [X in X = _]eq_E => l do rewrite -(th _ (x0 :: xs)).
move=> ->; have := size_map B (enum 'I_m.+1); rewrite size_enum_ord; case: [seq B t | t <- _] => // b0 bs [sb] /=.
apply: le_trans (av _ k x0 xs b0 bs f c sx sb fc k0 _) _; first by rewrite size_map size_iota.
by rewrite size_map size_iota.
Qed.

Lemma loop_last : settles m target kern bias ->
  exists2 e, 0 < e <= 1 &
  forall key x0 xs (B : 'I_m.+1 -> I) n f c, size xs = m -> (forall xs, `|f xs| <= c) ->
    `|E (mcmc_sampling (indexed kern) key (x0 :: xs, B) n 0)
        (fun out => if out is inr s then f s.1 else 0) - path_mean m target f|
    <= 2%:R * c * (1 - e) ^+ n + bias c / e.
Proof.
case=> sizes [_ [e e01 [cv _]]]; exists e => // key x0 xs B n f c sx fc.
rewrite mcmc_samplingE E_bind /=.
have lastE (S : Type) (K : Prog.key -> S -> prog S) keys s (h : S -> R) :
    E (visited K keys s) (fun l => h (last s l)) = E (after K keys s) h.
  elim: keys s => [|k keys IH] s //=; rewrite !E_bind; apply: eq_E => a; rewrite E_bind /=; exact: IH.
have := @visited_indexed [seq split key i | i <- iota 0 n] (x0 :: xs) B (fun l => f (last (x0 :: xs) l)) sizes (congr1 S sx).
under [X in X = _]eq_E => l do rewrite -[x0 :: xs]/((x0 :: xs, B).1) last_map.
move=> ->; have := size_map B (enum 'I_m.+1); rewrite size_enum_ord; case: [seq B t | t <- _] => // b0 bs [sb] /=.
under eq_E => l do rewrite -[x0 :: xs]/((x0 :: xs, b0 :: bs).1) last_map.
rewrite (lastE _ _ _ _ (fun s => f s.1)); apply: le_trans (cv _ x0 xs b0 bs f c sx sb fc) _.
by rewrite size_map size_iota.
Qed.
Lemma loop_consistent (f : seq X -> R) (c h eps : R) : settles m target kern (fun=> 0) ->
  (forall xs, `|f xs| <= c) -> 0 < h -> 0 < eps ->
  exists N, forall key x0 xs (B : 'I_m.+1 -> I) n k, size xs = m -> (0 < k)%N -> (N * k <= n)%N ->
    Pr (mcmc_sampling (indexed kern) key (x0 :: xs, B) n k)
       (fun out => if out is inl r then h <= `|average f r.1 - path_mean m target f| else false) <= eps.
Proof.
case=> sizes [pos [e e01 [_ av]]] fc h0 eps0.
have [e0 _] := andP e01.
pose C : R := 4%:R * c ^+ 2 * (1 + 2%:R / e).
have C0 : 0 <= C.
  apply: mulr_ge0; first by rewrite mulr_ge0 ?ler0n ?sqr_ge0.
  by apply: addr_ge0; rewrite ?ler01 // divr_ge0 ?ler0n // ltW.
have he : 0 < h ^+ 2 * eps by rewrite mulr_gt0 ?exprn_gt0.
have [N HN] := above (C / (h ^+ 2 * eps)).
exists N.+1 => key x0 xs B n k sx k0 nk.
have n0 : (0 < n)%N by apply: leq_trans nk; rewrite muln_gt0.
rewrite /Pr mcmc_samplingE E_bind /= (negbTE (_ : k != 0%N)) -?lt0n //=.
have th (l : seq (seq X)) d : thinned d k l = thinned [::] k l by rewrite -!everyE.
pose D (l : seq (seq X)) := average f (thinned [::] k l) - path_mean m target f.
have := @visited_indexed [seq split key i | i <- iota 0 n] (x0 :: xs) B (fun l => (h <= `|D l|)%R%:R) sizes (congr1 S sx).
under [X in X = _]eq_E => l do rewrite /D -(th _ (x0 :: xs)).
move=> ->; have := size_map B (enum 'I_m.+1); rewrite size_enum_ord; case: [seq B t | t <- _] => // b0 bs [sb] /=.
set keys := map _ _; have sk : size keys = n by rewrite size_map size_iota.
rewrite -(ler_pmul2l (_ : 0 < h ^+ 2)) ?exprn_gt0 //.
have H1 : 0 <= E (visited (on_pairs kern) keys (x0 :: xs, b0 :: bs)) (fun l => D [seq s.1 | s <- l] ^+ 2)
   - h ^+ 2 * E (visited (on_pairs kern) keys (x0 :: xs, b0 :: bs)) (fun l => (h <= `|D [seq s.1 | s <- l]|)%R%:R).
  rewrite -E_scale -E_sub; apply: (pos keys x0 xs b0 bs (fun l => D l ^+ 2 - h ^+ 2 * (h <= `|D l|)%R%:R)) => // l.
  rewrite subr_ge0; case hl : (h <= `|D l|)%R; last by rewrite (_ : false%:R = 0) // mulr0 sqr_ge0.
  rewrite (_ : true%:R = 1) // mulr1.
  rewrite -[D l ^+ 2]ger0_norm ?sqr_ge0 // normrX; apply: ler_expn2r; rewrite ?nnegrE ?normr_ge0 //; exact: ltW.
rewrite subr_ge0 in H1; apply: le_trans H1 _.
apply: le_trans (av keys k x0 xs b0 bs f c sx sb fc k0 _) _; first by rewrite sk.
have le : (N.+1 <= (n + k.-1) %/ k)%N by rewrite leq_divRL //; apply: leq_trans nk (leq_addr _ _).
rewrite mul0r mulr0 addr0 sk -/C ler_pdivr_mulr; last by rewrite ltr0n (leq_trans _ le).
apply: le_trans (_ : h ^+ 2 * eps * N.+1%:R <= _); last by apply: ler_wpmul2l; rewrite ?ler_nat // ltW.
rewrite mulrC -ler_pdivr_mulr //; apply: le_trans (_ : N%:R <= _); last by rewrite ler_nat.
exact: ltW.
Qed.
End Loop.

(** ** Independence of the indices *)
Lemma csmc_indices (X : finType) (n' : nat) (P Q : Type) (md : model X n' P Q)
    (mu0 : X -> R) (mut : X -> P -> X -> R) (rs : resampler n'.+1) (mv : mover n'.+1) ps qs (backward : bool)
    (key key' : key) x0 xs b0 bs b0' bs' (f : seq X -> R) :
  markov_model md mu0 mut -> mixing_resampler rs -> mixing_mover mv -> size ps = size qs ->
  size xs = size qs -> size bs = size qs -> size bs' = size qs ->
  E (drop_weights (kernel rs mv md key x0 xs b0 bs ps qs backward true)) (fun r => f r.1)
  = E (drop_weights (kernel rs mv md key' x0 xs b0' bs' ps qs backward true)) (fun r => f r.1).
Proof. by move=> mk [gr rot _ _] [mrot _ _] sp sx sb sb'; exact: (csmc_free backward (markov_rotating mk)). Qed.

Section Indices.
Variables (X : finZmodType) (n' : nat) (Q setting : Type) (noise ld : setting -> X -> R).
Variables (scale : setting -> X -> X) (logH : setting -> {ffun 'I_n'.+1 -> X} -> X -> X -> R).
Variables (rs : resampler n'.+1) (mv : mover n'.+1).
Variables (G0 : X -> R) (Gt : X -> X -> Q -> R) (g0 : X -> X) (gt : X -> X -> Q -> X).
Variables (s0 : setting) (ss : seq setting) (qs : seq Q) (backward : bool).
Variables (k k' : key) (x0 : X) (xs : seq X) (b0 : 'I_n'.+1) (bs : seq 'I_n'.+1) (b0' : 'I_n'.+1) (bs' : seq 'I_n'.+1).
Variable f : seq X -> R.
Hypotheses (noiseP : forall s, prob_vec (noise s)).

Lemma rw_indices : mixing_resampler rs -> mixing_mover mv -> size ss = size qs ->
  size xs = size qs -> size bs = size qs -> size bs' = size qs ->
  E (drop_weights (rw_kernel noise rs mv G0 Gt xpredT k x0 xs b0 bs s0 ss qs backward)) (fun r => f r.1)
  = E (drop_weights (rw_kernel noise rs mv G0 Gt xpredT k' x0 xs b0' bs' s0 ss qs backward)) (fun r => f r.1).
Proof. by move=> [gr rot _ _] [mrot _ _] sz sx sb sb'; apply: rw_free. Qed.

Lemma l_indices : (forall s x a phi y, logH s (moved a x) phi y = logH s x phi y) ->
  mixing_resampler rs -> mixing_mover mv -> size ss = size qs ->
  size xs = size qs -> size bs = size qs -> size bs' = size qs ->
  E (drop_weights (l_kernel noise scale logH rs mv G0 Gt g0 gt k x0 xs b0 bs s0 ss qs backward)) (fun r => f r.1)
  = E (drop_weights (l_kernel noise scale logH rs mv G0 Gt g0 gt k' x0 xs b0' bs' s0 ss qs backward)) (fun r => f r.1).
Proof. by move=> lm [gr rot _ _] [mrot _ _] sz sx sb sb'; apply: l_free. Qed.

Lemma al_indices : mixing_resampler rs -> mixing_mover mv -> size ss = size qs ->
  size xs = size qs -> size bs = size qs -> size bs' = size qs ->
  E (drop_weights (al_kernel noise ld scale rs mv G0 Gt g0 gt k x0 xs b0 bs s0 ss qs backward)) (fun r => f r.1)
  = E (drop_weights (al_kernel noise ld scale rs mv G0 Gt g0 gt k' x0 xs b0' bs' s0 ss qs backward)) (fun r => f r.1).
Proof. by move=> [gr rot _ _] [mrot _ _] sz sx sb sb'; apply: al_free. Qed.
End Indices.

(** ** Examples *)
Lemma ex_csmc_settles n' G0 Gt (qs : seq unit) : (0 < n')%N ->
  settles (size qs) (path_target G0 Gt qs)
    (fun key x0 xs b0 bs =>
       drop_weights (kernel (@killing n') (@barker_move _) (ex_model n' G0 Gt) key x0 xs b0 bs qs qs false true)) (fun=> 0).
Proof.
move=> n0; have [_ mk mb _] := mixing_contracts n'; have [_ _ gb] := contracts n'.
by apply: (csmc_settles false (ex_markov n' G0 Gt)) => //; rewrite card_bool.
Qed.

Lemma ex_settles_ok (X : finZmodType) (n' : nat) (setting : Type) (ld : setting -> X -> R) (s : setting) :
  [/\ forall z, 0 < ex_noise ld s z, good_mover (@barker_move n'.+1)
    & forall (x : {ffun 'I_n'.+1 -> X}) a phi y, ex_logH ld s (moved a x) phi y = ex_logH ld s x phi y].
Proof.
split=> [z||x a phi y]; [exact: ex_noise_gt0|by case: (contracts n')|].
rewrite /ex_logH; congr ln; apply: eq_bigr => u _; congr (_ * _).
by rewrite (prod_moved a); apply: eq_bigr => i _; rewrite ffunE addrK.
Qed.

Lemma alone key (x0 : bool) b0 g (c : R) : (forall b, g ([:: x0], [:: b]) = c) ->
  E (drop_weights (kernel (@multinomial 1) (@barker_move 1) (ex_model 0 (fun=> 0) (fun _ _ _ => 0)) key x0 [::] b0 [::]
    [::] [::] false true)) g = c.
Proof.
move=> gc; rewrite E_kernel1 (@eq_E _ _ _ (fun=> c)); first by apply: E_const; case: (unif_indep 0 (split key 0)).
move=> y; rewrite (@eq_E _ _ _ (fun=> c)) => [|r]; last first.
  by rewrite /= (ord1 r.1) (ord1 b0) /upd /= ffunE eqxx.
by apply: E_const; apply: barker_proper; exact: normalize_prob.
Qed.

Lemma E_after (S : Type) (K : key -> S -> prog S) k keys s h :
  E (after K (k :: keys) s) h = E (K k s) (fun s' => E (after K keys s') h).
Proof. by rewrite /= E_bind. Qed.

Lemma geometric_le (e : R) t : 0 <= e -> e <= 1 -> (1 - e) ^+ t * (1 + t%:R * e) <= 1.
Proof.
move=> e0 e1; elim: t => [|t IH]; first by rewrite expr0 mul0r addr0 mulr1.
apply: le_trans IH; rewrite exprS mulrAC mulrC; apply: ler_wpmul2l; first by rewrite exprn_ge0 // subr_ge0.
have : 0 <= t%:R * e * e + e * e by rewrite addr_ge0 ?mulr_ge0 ?ler0n.
rewrite -addn1 natrD; move: (t%:R : R) => u h; rewrite -subr_ge0; apply: le_trans h _; rewrite le_eqVlt; apply/orP; left.
by apply/eqP; rewrite (_ : (1%:R : R) = 1) //; Rring.
Qed.

Lemma one_particle :
  ~ forall (X : finType) (md : model X 0 unit unit) (mu0 : X -> R) (mut : X -> unit -> X -> R),
    markov_model md mu0 mut ->
    settles 0 (path_target (Gamma0 md) (Gammat md) [::])
      (fun key x0 xs b0 bs => drop_weights (kernel (@multinomial 1) (@barker_move 1) md key x0 xs b0 bs [::] [::] false true))
      (fun=> 0).
Proof.
move=> H; have [_ [_ [e /andP [e0 e1] [cv _]]]] := H _ _ _ _ (ex_markov 0 (fun=> 0) (fun _ _ _ => 0)).
pose f (xs : seq bool) : R := if xs is [:: true] then 1 else 0.
have fc xs : `|f xs| <= 1 by rewrite /f; case: xs => [|[] [|]]; rewrite ?normr0 ?normr1 ?ler01.
have [t ht] := above (3%:R / e).
have := cv (nseq t [::]) true [::] ord0 [::] f 1 erefl erefl fc.
set K := on_pairs _; have -> : E (after K (nseq t [::]) ([:: true], [:: ord0])) (fun s => f s.1) = 1.
  move: (ord0) => b0; elim: t {ht} b0 => [|t IH] b0 //.
  by rewrite E_after; apply: alone => b; exact: IH.
have -> : path_mean 0 (path_target (fun=> 0) (fun _ _ _ => 0) ([::] : seq unit)) f = 1 / 2%:R.
  have ex : path_target (fun=> 0) (fun (_ _ : bool) _ => 0) ([::] : seq unit) =2 (fun _ _ => 1).
    by move=> x [|y ys]; rewrite /path_target /= ?addr0 exp_0.
  have one (F : seq bool -> R) : \sum_(xs : 0.-tuple bool) F xs = F [::].
    by rewrite (big_pred1 [tuple]) // => i; apply/esym/eqP; exact: tuple0.
  have two (F : bool -> seq bool -> R) : path_sum 0 F = F true [::] + F false [::].
    by rewrite /path_sum big_bool /= (one (F true)) (one (F false)).
  by rewrite /path_mean !two !ex /f !mul1r addr0 mul1r.
rewrite size_nseq mul0r addr0 mulr1 => h.
have t0 : 0 < 1 + t%:R * e by apply: ltr_paddr; rewrite ?ltr01 // mulr_ge0 ?ler0n // ltW.
have g := geometric_le t (ltW e0) e1.
have g4 : 4%:R < 1 + t%:R * e.
  by rewrite (_ : 4%:R = 1 + 3%:R :> R) -?natrD // ltr_add2l -ltr_pdivr_mulr.
have h1 : 1 / 2%:R <= 2%:R * (1 - e) ^+ t.
  apply: le_trans h; apply: le_trans (ler_norm _); rewrite -subr_ge0 le_eqVlt; apply/orP; left; apply/eqP.
  by toR; lra.
have h2 : 0 <= (1 - e) ^+ t by rewrite exprn_ge0 // subr_ge0.
have sw (u v : R) : 4%:R < v -> 1 / 2%:R <= 2%:R * u -> 0 <= u -> u * v <= 1 -> False.
  move=> k1 k2 k3 k4.
  have k5 : 1 / 4%:R <= u.
    rewrite ler_pdivr_mulr ?ltr0n //; move: k2; rewrite ler_pdivr_mulr ?ltr0n //.
    by rewrite mulrAC -natrM mulrC.
  have : 1 < u * v.
    apply: le_lt_trans (_ : 1 / 4%:R * 4%:R < _); first by rewrite divfK ?pnatr_eq0.
    apply: le_lt_trans (_ : u * 4%:R < _); first by apply: ler_wpmul2r; rewrite ?ler0n.
    by rewrite ltr_pmul2l //; apply: lt_le_trans k5; rewrite divr_gt0 ?ltr01 ?ltr0n.
  by rewrite ltNge k4.
exact: sw g4 h1 h2 g.
Qed.
