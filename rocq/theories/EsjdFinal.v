(** * EsjdFinal: final forms for C74. *)
From Coq Require Import Reals Lra.
From mathcomp Require Import all_ssreflect all_algebra.
From Verif Require Import RInst Prog ProgTheory Resampling Spec Csmc CsmcInvariance CsmcSpecs CsmcFinal CsmcProofs AuxCsmc AuxFinal TpCsmc TpFinal.
From Verif Require Import Experiments ErgodicSpec ErgodicChain ErgodicFinal ErgodicTp ProperSpec ProperProofs RunProofs RunFinal Esjd EsjdSpec EsjdProofs.

Set Implicit Arguments.
Unset Strict Implicit.
Unset Printing Implicit Defensive.
Import GRing.Theory Num.Theory Order.TTheory.
Local Open Scope ring_scope.

Section General.
Variables (D : Type) (X : finType) (S : Type) (dx m : nat) (coord : X -> 'I_dx -> R) (path : S -> seq X) (x : X).
Variables (draws : key -> D -> prog (nat -> seq X)) (start : D -> seq X -> S).
Variables (kern : D -> key -> S -> prog S) (target : D -> X -> seq X -> R) (M : nat).
Local Notation law key := (fun d xs => do r <- kern d key (start d xs); Ret (path r)).
Hypotheses (M0 : (0 < M)%N)
  (drawsP : forall key d, pairwise_draws (path_mean m (target d)) M (draws key d))
  (drawsS : forall key d, always (fun xs => forall i, size (xs i) = m.+1) (draws key d))
  (kernP : forall d key xs, size xs = m.+1 -> proper (kern d key (start d xs)))
  (startP : forall d xs, path (start d xs) = xs)
  (kernS : forall d key xs, size xs = m.+1 -> always (fun r => size (path r) = m.+1) (kern d key (start d xs)))
  (kernF : forall d key key' xs f, size xs = m.+1 -> E (law key d xs) f = E (law key' d xs) f).

Lemma esjd_estimates key0 : estimates_jump m M target coord x (law key0)
  (fun get_data key K => lg_esjd_run coord path get_data draws start kern key K M).
Proof.
move=> gd key K k gP kK.
have rg (g : Prog.key -> prog D) F (gp : forall key, proper (g key)) :=
  @run_given D X S dx m coord path draws start kern target M drawsP drawsS kernP g key K k F gp kK.
split=> [F|d t tm|d t tm].
- by rewrite rg //; apply: eq_E => d; rewrite rg.
- rewrite (rg _ (fun r => r t)) //=; exact: given_mean.
- rewrite (rg _ (fun r => (r t - jump_mean m (target d) coord x (law key0 d) t) ^+ 2)) //=; exact: given_error.
Qed.
End General.

Lemma esjd_key (D : Type) (X : finType) (S : Type) (dx m : nat) (coord : X -> 'I_dx -> R) (path : S -> seq X) (x : X)
    (draws : key -> D -> prog (nat -> seq X)) (start : D -> seq X -> S) (kern : D -> key -> S -> prog S)
    (target : D -> X -> seq X -> R) (M : nat) : (0 < M)%N ->
  (forall key d, pairwise_draws (path_mean m (target d)) M (draws key d)) ->
  (forall key d, always (fun xs => forall i, size (xs i) = m.+1) (draws key d)) ->
  (forall d key xs, size xs = m.+1 -> proper (kern d key (start d xs))) ->
  (forall d xs, path (start d xs) = xs) ->
  (forall d key xs, size xs = m.+1 -> always (fun r => size (path r) = m.+1) (kern d key (start d xs))) ->
  (forall d key key' xs (f : seq X -> R), size xs = m.+1 ->
     E (kern d key (start d xs)) (fun r => f (path r)) = E (kern d key' (start d xs)) (fun r => f (path r))) ->
  forall key0, estimates_jump m M target coord x (fun d xs => do r <- kern d key0 (start d xs); Ret (path r))
    (fun get_data key K => lg_esjd_run coord path get_data draws start kern key K M).
Proof.
move=> h1 h2 h3 h4 h5 h6 h7 key0; apply: esjd_estimates => // d key key' xs f sx.
by rewrite !E_bind; exact: h7.
Qed.

(** ** Moments of the jump *)
Section Moments.
Variables (X : finType) (dx m : nat) (target : X -> seq X -> R) (coord : X -> 'I_dx -> R) (x : X).
Variables (law : seq X -> prog (seq X)) (t : nat).
Hypotheses (pos : forall x0 xs, 0 < target x0 xs) (lawP : forall xs, size xs = m.+1 -> proper (law xs)).
Local Notation mean := (path_mean m target).
Local Notation J := (jump_mean m target coord x law t).

Lemma jump_bounds c : (forall y z, \sum_i (coord y i - coord z i) ^+ 2 <= c) ->
  0 <= J <= c /\ 0 <= jump_variance m target coord x law t <= c ^+ 2.
Proof.
move=> hc.
have ge0 (y z : X) : 0 <= \sum_i (coord y i - coord z i) ^+ 2 by apply: sumr_ge0 => i _; exact: sqr_ge0.
have j : 0 <= J <= c.
  apply/andP; split.
    rewrite -[0](mean_const m pos x); apply: mean_le => // xs sx; exact: E_ge0 (lawP sx) _.
  rewrite -[X in _ <= X](mean_const m pos x); apply: mean_le => // xs sx.
  by rewrite -[X in _ <= X](E_const _ (lawP sx)); apply: E_le => //; exact: lawP.
split=> //; have /andP[j0 jc] := j; apply/andP; split.
  rewrite -[0](mean_const m pos x); apply: mean_le => // xs sx; apply: E_ge0 (lawP sx) _ => ys; exact: sqr_ge0.
rewrite -[X in _ <= X](mean_const m pos x); apply: mean_le => // xs sx.
rewrite -[X in _ <= X](E_const _ (lawP sx)); apply: E_le => [|ys]; first exact: lawP.
have [a0 ac] := (ge0 (nth x xs t) (nth x ys t), hc (nth x xs t) (nth x ys t)).
move: (\sum_i _) (jump_mean _ _ _ _ _ _) a0 ac j0 jc => a b a0 ac b0 bc.
rewrite -[(a - b) ^+ 2]ger0_norm ?sqr_ge0 // normrX; apply: ler_expn2r; rewrite ?nnegrE ?normr_ge0 //.
  exact: le_trans a0 ac.
by rewrite ler_norml; apply/andP; split; toR; lra.
Qed.

Hypothesis inv : path_invariant m target law.
Local Notation h := (fun i => at_time coord x t i).
Local Notation mu i := (mean (at_time coord x t i)).

Lemma jump_expand i : mean (fun xs => E (law xs) (fun ys => (h i xs - h i ys) ^+ 2))
  = 2%:R * (variance m target coord x t i - autocovariance m target coord x law t i).
Proof.
have alg (u v w : R) : (u - v) ^+ 2 = (u - w) ^+ 2 + ((v - w) ^+ 2 + - 2%:R * (u - w) * (v - w)) by rewrite !expr2; Rring.
transitivity (mean (fun xs => (h i xs - mu i) ^+ 2 + (E (law xs) (fun ys => (h i ys - mu i) ^+ 2)
    + - 2%:R * ((h i xs - mu i) * E (law xs) (fun ys => h i ys - mu i))))).
  apply: mean_eq => xs sx; rewrite (eq_E _ (fun ys => alg (h i xs) (h i ys) (mu i))).
  apply: etrans (E_add _ _ _) _; apply: f_equal2; first by apply: E_const; exact: lawP.
  apply: etrans (E_add _ _ _) _; apply: f_equal2 => //.
  by rewrite [in RHS]mulrA; exact: E_scale.
rewrite mean_add mean_add mean_scale inv -/(variance m target coord x t i) -/(autocovariance m target coord x law t i).
by move: (variance _ _ _ _ _ _) (autocovariance _ _ _ _ _ _ _) => u v; Rring.
Qed.

Lemma jump_autocovariance :
  J = \sum_i 2%:R * (variance m target coord x t i - autocovariance m target coord x law t i).
Proof.
rewrite /jump_mean (@mean_eq _ _ _ _ (fun xs => \sum_i E (law xs) (fun ys => (h i xs - h i ys) ^+ 2))); last first.
  by move=> xs _; rewrite E_sum.
by rewrite mean_sum; apply: eq_bigr => i _; exact: jump_expand.
Qed.

Lemma jump_le : J <= \sum_i 4%:R * variance m target coord x t i.
Proof.
rewrite /jump_mean (@mean_eq _ _ _ _ (fun xs => \sum_i E (law xs) (fun ys => (h i xs - h i ys) ^+ 2))); last first.
  by move=> xs _; rewrite E_sum.
rewrite mean_sum; apply: ler_sum => i _.
have -> : 4%:R * variance m target coord x t i
    = mean (fun xs => 2%:R * (h i xs - mu i) ^+ 2 + 2%:R * E (law xs) (fun ys => (h i ys - mu i) ^+ 2)).
  rewrite mean_lin inv -/(variance m target coord x t i) -mulrDl; congr (_ * _); by rewrite -natrD.
apply: mean_le => // xs sx.
rewrite -E_scale -[2%:R * (h i xs - mu i) ^+ 2](E_const _ (lawP sx)) -E_add; apply: E_le => [|ys]; first exact: lawP.
have alg (u v w : R) : 2%:R * (u - w) ^+ 2 + 2%:R * (v - w) ^+ 2 = (u - v) ^+ 2 + (u + v - 2%:R * w) ^+ 2 by rewrite !expr2; Rring.
by rewrite alg ler_addl sqr_ge0.
Qed.
End Moments.

(** ** Particle kernels started with indices zero *)
Section Particles.
Variables (D : Type) (X : finType) (n' m dx : nat) (coord : X -> 'I_dx -> R) (x : X).
Variables (draws : key -> D -> prog (nat -> seq X)) (M : nat) (target : D -> X -> seq X -> R).
Variable kern : D -> key -> X -> seq X -> 'I_n'.+1 -> seq 'I_n'.+1 -> prog (seq X * seq 'I_n'.+1).
Hypotheses (M0 : (0 < M)%N)
  (drawsP : forall key d, pairwise_draws (path_mean m (target d)) M (draws key d))
  (drawsS : forall key d, always (fun xs => forall i, size (xs i) = m.+1) (draws key d))
  (kernP : forall d key x0 xs b0 bs, proper (kern d key x0 xs b0 bs))
  (kernS : forall d key x0 xs b0 bs, size xs = m -> size bs = m ->
     always (fun r => size r.1 = m.+1 /\ size r.2 = m.+1) (kern d key x0 xs b0 bs))
  (kernF : forall d key key' x0 xs b0 bs b0' bs' (f : seq X -> R), size xs = m -> size bs = m -> size bs' = m ->
     E (kern d key x0 xs b0 bs) (fun r => f r.1) = E (kern d key' x0 xs b0' bs') (fun r => f r.1)).
Local Notation zeros := (nseq m.+1 (ord0 : 'I_n'.+1)).

Lemma on_pairs_proper d key s : proper (on_pairs (kern d) key s).
Proof. by case: s => [[|x0 xs] [|b0 bs]] //; exact: kernP. Qed.

Lemma from_zeros_proper d key xs : proper (from_zeros m (kern d) key xs).
Proof. by apply: proper_bind => //; exact: on_pairs_proper. Qed.

Lemma particles_estimate key0 : estimates_jump m M target coord x (fun d => from_zeros m (kern d) key0)
  (fun get_data key K => lg_esjd_run coord fst get_data draws (fun _ xs => (xs, zeros)) (fun d => on_pairs (kern d)) key K M).
Proof.
apply: (@esjd_estimates D X _ dx m coord (@fst (seq X) (seq 'I_n'.+1)) x draws (fun _ xs => (xs, zeros))
  (fun d => on_pairs (kern d)) target M) => //.
- by move=> d key xs _; exact: on_pairs_proper.
- move=> d key [|x0 xs] // [sx]; apply: always_imp (kernS d key x0 ord0 sx (size_nseq m _)) => r [] //.
- move=> d key key' [|x0 xs] f // [sx]; rewrite !E_bind; exact: (kernF d key key' x0 ord0 ord0 f sx (size_nseq m _) (size_nseq m _)).
Qed.

Lemma from_zeros_invariant d key : (forall x0 xs, 0 < target d x0 xs) ->
  leaves_invariant m (target d) (kern d key) -> path_invariant m (target d) (from_zeros m (kern d) key).
Proof.
move=> pos inv f; have := inv (fun xs _ => f xs).
have I0 : (0 : R) < (#|'I_n'.+1| * #|{: m.-tuple 'I_n'.+1}|)%:R by exact: idx_gt0.
have tE (F : X -> seq X -> R) : traj_sum m (fun x0 xs (_ : 'I_n'.+1) _ => F x0 xs)
    = (#|'I_n'.+1| * #|{: m.-tuple 'I_n'.+1}|)%:R * path_sum m F by rewrite traj_path.
rewrite (_ : traj_sum m (fun x0 xs b0 bs => target d x0 xs * E (kern d key x0 xs b0 bs) (fun r => f r.1))
  = traj_sum m (fun x0 xs (_ : 'I_n'.+1) _ => target d x0 xs * E (from_zeros m (kern d) key (x0 :: xs)) f)); last first.
  apply: eq_bigr => x0 _; apply: eq_bigr => b0 _; apply: eq_bigr => xs _; apply: eq_bigr => bs _; congr (_ * _).
  by rewrite E_bind; apply: kernF; rewrite ?size_tuple ?size_nseq.
by rewrite !tE => /(mulfI (lt0r_neq0 I0)) e; rewrite /path_mean e.
Qed.
End Particles.

Lemma final_mixing n' (mv : mover n'.+1) bias : final_move mv bias -> mixing_mover mv.
Proof. by case=> [[]|[-> _]] //; have [] := mixing_contracts n'. Qed.

(** ** The kernels of the code *)
Section Kernels.
Variables (D : Type) (n' m dx M : nat) (rs : resampler n'.+1) (mv : mover n'.+1) (bias : R -> R) (backward : bool).
Hypotheses (M0 : (0 < M)%N) (n0 : (0 < n')%N) (mr : mixing_resampler rs) (dr : draws_resampler rs) (fm : final_move mv bias).
Local Notation zeros := (nseq m.+1 (ord0 : 'I_n'.+1)).

(** What is proved of a kernel. *)
Definition good_esjd (X : finType) (coord : X -> 'I_dx -> R) (x : X) (draws : key -> D -> prog (nat -> seq X))
    (target : D -> X -> seq X -> R)
    (kern : D -> key -> X -> seq X -> 'I_n'.+1 -> seq 'I_n'.+1 -> prog (seq X * seq 'I_n'.+1)) : Prop :=
  forall key0,
    estimates_jump m M target coord x (fun d => from_zeros m (kern d) key0)
      (fun get_data key K => lg_esjd_run coord fst get_data draws (fun _ xs => (xs, zeros)) (fun d => on_pairs (kern d)) key K M)
    /\ (good_mover mv -> forall d, path_invariant m (target d) (from_zeros m (kern d) key0)).

Lemma good_esjd_of (X : finType) (coord : X -> 'I_dx -> R) (x : X) draws (target : D -> X -> seq X -> R) kern :
  (forall key d, pairwise_draws (path_mean m (target d)) M (draws key d)) ->
  (forall key d, always (fun xs => forall i, size (xs i) = m.+1) (draws key d)) ->
  (forall d key x0 xs b0 bs, proper (kern d key x0 xs b0 bs)) ->
  (forall d, settles m (target d) (kern d) bias) ->
  (forall d key key' x0 xs b0 bs b0' bs' (f : seq X -> R), size xs = m -> size bs = m -> size bs' = m ->
     E (kern d key x0 xs b0 bs) (fun r => f r.1) = E (kern d key' x0 xs b0' bs') (fun r => f r.1)) ->
  (good_mover mv -> forall d key, leaves_invariant m (target d) (kern d key)) ->
  (forall d x0 xs, 0 < target d x0 xs) -> good_esjd coord x draws target kern.
Proof.
move=> h1 h2 h3 h4 h5 h6 h7 key0; split; last by move=> gm d; apply: from_zeros_invariant => //; exact: h6.
by apply: particles_estimate => // d key x0 xs b0 bs; have [h _] := h4 d; exact: h.
Qed.

Lemma path_target_gt0 (X : finType) Q (G0 : X -> R) (Gt : X -> X -> Q -> R) qs x0 xs : 0 < path_target G0 Gt qs x0 xs.
Proof. by rewrite /path_target; apply/RltE; exact: exp_pos. Qed.

Lemma csmc_esjd (X : finType) (coord : X -> 'I_dx -> R) x draws (P Q : Type) (md : D -> model X n' P Q)
    (mu0 : D -> X -> R) (mut : D -> X -> P -> X -> R) (ps : D -> seq P) (qs : D -> seq Q) :
  (forall d, markov_model (md d) (mu0 d) (mut d)) -> (forall d, size (ps d) = m) -> (forall d, size (qs d) = m) ->
  (forall key d, pairwise_draws (path_mean m (path_target (Gamma0 (md d)) (Gammat (md d)) (qs d))) M (draws key d)) ->
  (forall key d, always (fun xs => forall i, size (xs i) = m.+1) (draws key d)) ->
  good_esjd coord x draws (fun d => path_target (Gamma0 (md d)) (Gammat (md d)) (qs d))
    (fun d key x0 xs b0 bs => drop_weights (kernel rs mv (md d) key x0 xs b0 bs (ps d) (qs d) backward true)).
Proof.
move=> mk szp szq h1 h2; have fd := final_draws fm; have mm := final_mixing fm.
apply: good_esjd_of => //.
- move=> d key x0 xs b0 bs; apply: drop_proper; apply: kernel_proper => // [k|k xm p].
  + by have [h _ _ _] := mk d; have [h' _ _] := h k.
  + by have [_ _ h _] := mk d; have [h' _ _] := h k xm p.
- have X0 : (0 < #|X|)%N by apply/card_gt0P; exists x.
  move=> d; rewrite -(szq d); case: fm => [[_ gm ->]|[-> ->]].
  + by apply: (csmc_settles backward (mk d)); rewrite ?szp ?szq.
  + by apply: (csmc_settles_force backward (mk d)); rewrite ?szp ?szq.
- by move=> d key key' x0 xs b0 bs b0' bs' f sx sb sb'; apply: (csmc_indices _ _ _ _ _ _ _ (mk d)); rewrite ?szp ?szq.
- by move=> gm d key; rewrite -(szq d); case: mr => gr _ _ _; apply: csmc_markov (mk d) gr gm _; rewrite szp szq.
- by move=> d x0 xs; exact: path_target_gt0.
Qed.

Section Three.
Variables (X : finZmodType) (coord : X -> 'I_dx -> R) (x : X) (draws : key -> D -> prog (nat -> seq X)).
Variables (Q setting : Type) (noise ld : setting -> X -> R).
Variables (scale : setting -> X -> X) (logH : setting -> {ffun 'I_n'.+1 -> X} -> X -> X -> R).
Variables (G0 : D -> X -> R) (Gt : D -> X -> X -> Q -> R) (g0 : D -> X -> X) (gt : D -> X -> X -> Q -> X) (qs : D -> seq Q).
Variables (s0 : setting) (ss : seq setting).
Hypotheses (szs : size ss = m) (szq : forall d, size (qs d) = m)
  (noiseP : forall s, prob_vec (noise s)) (noise_gt0 : forall s z, 0 < noise s z)
  (h1 : forall key d, pairwise_draws (path_mean m (path_target (G0 d) (Gt d) (qs d))) M (draws key d))
  (h2 : forall key d, always (fun xs => forall i, size (xs i) = m.+1) (draws key d)).
Local Notation target := (fun d => path_target (G0 d) (Gt d) (qs d)).

Lemma rw_esjd : (forall s z, noise s (- z) = noise s z) -> good_esjd coord x draws target
  (fun d key x0 xs b0 bs => drop_weights (rw_kernel noise rs mv (G0 d) (Gt d) xpredT key x0 xs b0 bs s0 ss (qs d) backward)).
Proof.
move=> ev; have fd := final_draws fm; have mm := final_mixing fm; have [gr _ _ _] := mr.
have sz d : size ss = size (qs d) by rewrite szs szq.
apply: good_esjd_of => //.
- by move=> d key x0 xs b0 bs; apply: drop_proper; exact: rw_proper.
- move=> d; rewrite -(szq d); case: fm => [[_ gm ->]|[-> ->]]; [exact: rw_settles|exact: rw_settles_force].
- by move=> d key key' x0 xs b0 bs b0' bs' f sx sb sb'; apply: rw_indices; rewrite ?szq.
- by move=> gm d key; rewrite -(szq d); exact: rw_inv.
- by move=> d x0 xs; exact: path_target_gt0.
Qed.

Lemma l_esjd :
  (forall s, exists S : {ffun 'I_n'.+1 -> X} -> R, forall (x : {ffun 'I_n'.+1 -> X}) b phi,
     \sum_u noise s (u - (x b + phi)) * \prod_(i | i != b) noise s (x i - u) = S x * exp (logH s x phi (x b))) ->
  (forall s x a phi y, logH s (moved a x) phi y = logH s x phi y) -> good_esjd coord x draws target
  (fun d key x0 xs b0 bs => drop_weights
     (l_kernel noise scale logH rs mv (G0 d) (Gt d) (g0 d) (gt d) key x0 xs b0 bs s0 ss (qs d) backward)).
Proof.
move=> cor lm; have fd := final_draws fm; have mm := final_mixing fm; have [gr _ _ _] := mr.
have sz d : size ss = size (qs d) by rewrite szs szq.
apply: good_esjd_of => //.
- by move=> d key x0 xs b0 bs; apply: drop_proper; exact: l_proper.
- move=> d; rewrite -(szq d); case: fm => [[_ gm ->]|[-> ->]]; [exact: l_settles|exact: l_settles_force].
- by move=> d key key' x0 xs b0 bs b0' bs' f sx sb sb'; apply: l_indices; rewrite ?szq.
- by move=> gm d key; rewrite -(szq d); exact: l_inv.
- by move=> d x0 xs; exact: path_target_gt0.
Qed.

Lemma al_esjd : (forall s, exists c, c != 0 /\ forall z, exp (ld s z) = c * noise s z) -> good_esjd coord x draws target
  (fun d key x0 xs b0 bs => drop_weights
     (al_kernel noise ld scale rs mv (G0 d) (Gt d) (g0 d) (gt d) key x0 xs b0 bs s0 ss (qs d) backward)).
Proof.
move=> ldP; have fd := final_draws fm; have mm := final_mixing fm; have [gr _ _ _] := mr.
have sz d : size ss = size (qs d) by rewrite szs szq.
apply: good_esjd_of => //.
- by move=> d key x0 xs b0 bs; apply: drop_proper; exact: al_proper.
- move=> d; rewrite -(szq d); case: fm => [[_ gm ->]|[-> ->]]; [exact: al_settles|exact: al_settles_force].
- by move=> d key key' x0 xs b0 bs b0' bs' f sx sb sb'; apply: al_indices; rewrite ?szq.
- by move=> gm d key; rewrite -(szq d); exact: al_inv.
- by move=> d x0 xs; exact: path_target_gt0.
Qed.
End Three.

Section Tp.
Variables (X : finZmodType) (coord : X -> 'I_dx -> R) (x : X) (draws : key -> D -> prog (nat -> seq X)) (Q : Type).
Variables (noise0 : X -> R) (noise : Q -> X -> R) (scale0 : X -> X) (scale : Q -> X -> X).
Variables (pnoise0 : X -> R) (pnoise : Q -> X -> R) (mean0 : X -> X) (mean : Q -> X -> X -> X).
Variables (prior0 : D -> X -> R) (prior : D -> X -> X -> Q -> R) (r0 : D -> X -> R) (rt : D -> X -> X -> Q -> R).
Variables (g0 : D -> X -> X) (gt : D -> X -> X -> Q -> X) (qs : D -> seq Q).
Variables (logH0 : {ffun 'I_n'.+1 -> X} -> X -> 'I_n'.+1 -> R)
  (logH : Q -> {ffun 'I_n'.+1 -> X} -> {ffun 'I_n'.+1 -> X} -> X -> 'I_n'.+1 -> R).
Local Notation target := (fun d => path_target (fun x => prior0 d x + r0 d x) (fun x y q => prior d x y q + rt d x y q) (qs d)).

Lemma tp_esjd : (forall d, size (qs d) = m) ->
  (forall key d, pairwise_draws (path_mean m (target d)) M (draws key d)) ->
  (forall key d, always (fun xs => forall i, size (xs i) = m.+1) (draws key d)) ->
  prob_vec noise0 -> (forall q, prob_vec (noise q)) -> prob_vec pnoise0 -> (forall q, prob_vec (pnoise q)) ->
  (forall z, 0 < noise0 z) -> (forall q z, 0 < noise q z) -> (forall z, 0 < pnoise0 z) -> (forall q z, 0 < pnoise q z) ->
  (forall (x : {ffun 'I_n'.+1 -> X}) (a b : 'I_n'.+1) phi, logH0 (moved a x) phi (b + a) = logH0 x phi b) ->
  (forall q (xm x : {ffun 'I_n'.+1 -> X}) (a b : 'I_n'.+1) phi, logH q (moved a xm) (moved a x) phi (b + a) = logH q xm x phi b) ->
  (exists S : {ffun 'I_n'.+1 -> X} -> R, forall (x : {ffun 'I_n'.+1 -> X}) b phi,
     \sum_u noise0 (u - (x b + phi)) * \prod_(i | i != b) pnoise0 (x i - mean0 u) = S x * exp (logH0 x phi b)) ->
  (forall q (xm : {ffun 'I_n'.+1 -> X}), exists S : {ffun 'I_n'.+1 -> X} -> R, forall (x : {ffun 'I_n'.+1 -> X}) b phi,
     \sum_u noise q (u - (x b + phi)) * \prod_(i | i != b) pnoise q (x i - mean q (xm i) u) = S x * exp (logH q xm x phi b)) ->
  good_esjd coord x draws target
    (fun d key x0 xs b0 bs => drop_weights
       (tp_kernel noise0 noise scale0 scale pnoise0 pnoise mean0 mean (prior0 d) (prior d) (r0 d) (rt d)
          (g0 d) (gt d) logH0 logH rs mv key x0 xs b0 bs (qs d) backward)).
Proof.
move=> szq h1 h2 k1 k2 k3 k4 k5 k6 k7 k8 k9 k10 k11 k12; have fd := final_draws fm; have mm := final_mixing fm; have [gr _ _ _] := mr.
apply: good_esjd_of => //.
- by move=> d key x0 xs b0 bs; apply: drop_proper; exact: tp_proper.
- move=> d; rewrite -(szq d); case: fm => [[_ gm ->]|[-> ->]]; [exact: tp_settles|exact: tp_settles_force].
- by move=> d key key' x0 xs b0 bs b0' bs' f sx sb sb'; apply: tp_indices; rewrite ?szq.
- by move=> gm d key; rewrite -(szq d); exact: tp_inv.
- by move=> d x0 xs; exact: path_target_gt0.
Qed.
End Tp.
End Kernels.
