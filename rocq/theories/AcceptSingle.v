(** * AcceptSingle: averages over the moves of mala.py, tp.py and imh.py, and the acceptance rates that the loop of tp.py
    records. *)
From Coq Require Import Reals Lra FunctionalExtensionality.
From mathcomp Require Import all_ssreflect all_algebra.
From Verif Require Import RInst Prog ProgTheory Resampling Spec ResamplingProofs MoveProofs CsmcInvariance Single SingleSpec SingleProofs SingleFinal.
From Verif Require Import DriverSpec Drivers DriverProofs ErgodicSpec ErgodicTheory ErgodicChain ErgodicFinal.
From Verif Require Import ErgodicSingleSpec ErgodicSingle ProperSpec ProperProofs RunFinal AcceptSpec AcceptProofs.

Set Implicit Arguments.
Unset Strict Implicit.
Unset Printing Implicit Defensive.
Import GRing.Theory Num.Theory Order.TTheory.
Local Open Scope ring_scope.

(** ** Single states as trajectories of one state, indicators as changes of an index *)
Section One.
Variables (X : finType) (C : Type) (cached : X -> C) (K : key -> X * C -> prog (X * C * bool)).
Variables (target : X -> R) (bias : R -> R).
Hypothesis coh : forall key x, always (fun r => r.1.2 = cached r.1.1) (K key (x, cached x)).
Hypothesis pr : forall key x, proper (K key (x, cached x)).
Hypothesis free : key_free cached K.
Hypothesis t0 : forall x, 0 < target x.
Hypothesis b0 : forall c, 0 <= c -> 0 <= bias c.

Definition as_flag (key : key) (x0 : X) (_ : seq X) (i : 'I_2) (_ : seq 'I_2) : prog (seq X * seq 'I_2) :=
  do r <- K key (x0, cached x0); Ret ([:: r.1.1], [:: if r.2 then i + 1 else i]).

Lemma flag_sizes key x0 xs i js : size xs = 0%N -> size js = 0%N ->
  always (fun r => size r.1 = 1%N /\ size r.2 = 1%N) (as_flag key x0 xs i js).
Proof. by move=> _ _; apply/always_bind; exact: always_true. Qed.

Lemma flag_changes (i : 'I_2) (b : bool) : changes [:: i] [:: if b then i + 1 else i] = [:: b].
Proof. by rewrite /changes /=; case: b; rewrite ?eqxx // -subr_eq0 opprD addNKr. Qed.

Lemma flag_free : index_free 0 as_flag.
Proof.
move=> key key' x0 xs i js i' js' F /size0nil-> /size0nil-> /size0nil->; rewrite /as_flag !E_bind.
rewrite -!/(E _ _).
have e k (j : 'I_2) : E (K k (x0, cached x0)) (fun r => F (move_of ([:: x0], [:: j]) ([:: r.1.1], [:: if r.2 then j + 1 else j])))
    = E (K k (x0, cached x0)) (fun r => F ([:: x0], [:: r.1.1], [:: r.2])).
  by apply: eq_E => r; rewrite /move_of flag_changes.
rewrite [LHS]e [RHS]e; exact: (free key key' x0 (fun z => F ([:: z.1.1], [:: z.1.2], [:: z.2]))).
Qed.

Lemma after_flag keys x (f : seq X -> R) (i : 'I_2) :
  E (after (on_pairs as_flag) keys ([:: x], [:: i])) (fun s => f s.1)
  = E (after (next K) keys (x, cached x)) (fun s => f [:: s.1]).
Proof.
elim: keys x i => [|k keys IH] x i //; rewrite [LHS]E_bind [RHS]E_bind.
rewrite [LHS]E_bind [RHS]E_bind; apply: eq_E_always; apply: always_imp (coh k x) => -[[z c] b] /= e.
by rewrite e; exact: IH.
Qed.

Definition plain (d : X) (v : move X) : X * X * bool := (head d v.1.1, head d v.1.2, head false v.2).

Lemma returned_flag keys x d b (G : seq (X * X * bool) -> R) (i : 'I_2) :
  E (visited (fun key r => K key r.1) keys (x, cached x, b)) (fun l => G (pairmap (fun a b => (a.1.1, b.1.1, b.2)) (x, cached x, b) l))
  = E (visited (on_pairs as_flag) keys ([:: x], [:: i])) (fun l => G [seq plain d v | v <- moves ([:: x], [:: i]) l]).
Proof.
elim: keys x b G i => [|k keys IH] x b G i //; rewrite [LHS]E_bind [RHS]E_bind.
rewrite [RHS]E_bind; apply: eq_E_always; apply: always_imp (coh k x) => -[[z c] b'] /= e.
rewrite !E_bind e /=.
rewrite (IH z b' (fun l => G ((x, z, b') :: l)) (if b' then i + 1 else i)); apply: eq_E => l /=.
by rewrite /move_of flag_changes.
Qed.

Lemma path_mean_one (f : seq X -> R) : path_mean 0 (fun x _ => target x) f = mean_under target (fun x => f [:: x]).
Proof.
rewrite /path_mean /mean_under /path_sum; congr (_ / _); apply: eq_bigr => x _.
  exact: (sum_tuple0 (fun t => target x * f (x :: t))).
exact: (sum_tuple0 (fun t => target x)).
Qed.

Lemma flag_proper key x0 xs i js : proper (as_flag key x0 xs i js).
Proof. by apply: proper_bind. Qed.

Lemma settles_positions_of : settles_position cached K target bias -> settles_positions cached K target bias.
Proof.
case=> e e01 [cv _]; split=> //; exists e => // keys k x F c Fc k0 n0.
have av : move_averages 0 (fun x _ => target x) as_flag bias e.
  apply: moves_average => //.
  - exact: flag_sizes.
  - exact: flag_free.
  - exact: flag_proper.
  - move=> ks y xs i js f c' /size0nil-> /size0nil-> fc; rewrite after_flag path_mean_one.
    exact: (cv ks y (fun z => f [:: z]) c').
  - by move=> f c' fc; apply: path_mean_norm.
have := av keys k x [::] (ord0 : 'I_2) [::] (F \o plain x) c erefl erefl (fun v => Fc _) k0 n0.
apply: le_trans; rewrite le_eqVlt; apply/orP; left; apply/eqP.
rewrite /returned /position_moves.
rewrite (returned_flag keys x x false (fun l => (average F (thinned (x, x, false) k l) - position_mean cached K target F) ^+ 2) ord0).
apply: eq_E => l; congr ((_ - _) ^+ 2).
  by rewrite (AcceptProofs.thinned_map (plain x) ([::], [::], [::])) // average_map.
rewrite /position_mean /move_mean path_mean_one; congr mean_under; apply: functional_extensionality => y.
rewrite /on_pairs /= /as_flag E_bind; apply: eq_E => r.
have fc := flag_changes (ord0 : 'I_2) r.2.
have := congr1 (fun b => F (y, r.1.1, head false b)) fc; exact.
Qed.
End One.

(** ** Kernels that select among the current state and proposals *)
Section Multi.
Variables (X U : finType) (N : nat) (mv : mover N.+1).
Local Notation pop := {ffun 'I_N.+1 -> X}.
Variables (C : Type) (cached : X -> C) (K : key -> X * C -> prog (X * C * bool)).
Variables (L : X -> U -> {ffun 'I_N -> X} -> R) (W : U -> pop -> 'I_N.+1 -> R).
Hypothesis mm : mixing_mover mv.
Hypothesis KE : forall key x (f : X -> bool -> R), E (K key (x, cached x)) (fun r => f r.1.1 r.2)
  = \sum_u \sum_y L x u y * E (mv (split key 1) (normalize (W u (front x y))) ord0) (fun r => f (front x y r.1) (r.1 != ord0)).

Lemma multi_key_free : key_free cached K.
Proof.
move=> key key' x F.
rewrite (KE key x (fun y b => F (x, y, b))) (KE key' x (fun y b => F (x, y, b))).
apply: eq_bigr => u _; apply: eq_bigr => y _; congr (_ * _).
case: mm => rot _ _; have := rot (split key 1) (split key' 1) (normalize (W u (front x y))) ord0 ord0
  (fun i => F (x, front x y i, i != ord0)) (normalize_prob _).
rewrite !E_index_of addr0.
have -> : moved_w ord0 (normalize (W u (front x y))) = normalize (W u (front x y)).
  by apply: functional_extensionality => i; rewrite /moved_w subr0.
by move=> ->; apply: eq_E => r; rewrite addr0.
Qed.
End Multi.

Lemma single_mixing N (mv : mover N.+1) bias : single_move mv bias -> mixing_mover mv.
Proof. by case=> [[]|[-> _]] //; have [_ _ _] := mixing_contracts N. Qed.

(** ** The three kernels *)
Section Mala.
Variables (X : finZmodType) (N : nat) (log_pdf : X -> R) (grad : X -> X) (noise ld : X -> R) (scale : X -> X).
Variables (log_H : {ffun 'I_N.+1 -> X} -> X -> X -> R) (mv : mover N.+1) (bias : R -> R).
Hypotheses (N0 : (0 < N)%N) (noiseP : prob_vec noise) (noise_gt0 : forall z, 0 < noise z) (sm : single_move mv bias).
Local Notation cached := (fun x : X => (log_pdf x, grad x)).

Lemma regrouped_joint (Km : key -> X * R * X -> prog (X * R * X * bool)) k x v g (f : X -> bool -> R) :
  E (regrouped Km k (x, (v, g))) (fun r => f r.1.1 r.2) = E (Km k (x, v, g)) (fun r => f r.1.1.1 r.2).
Proof. by rewrite /regrouped E_bind. Qed.

Lemma mala_positions aux : marginal_H noise ld log_H aux ->
  settles_positions cached (regrouped (fun k => mala_kernel log_pdf grad noise ld scale log_H mv k aux))
    (fun x => exp (log_pdf x)) bias.
Proof.
move=> h; have fd := single_draws sm; have fb := single_bias sm; have mm := single_mixing sm.
apply: settles_positions_of => //.
- by move=> key x; exact: mala_coh.
- by move=> key x; apply: regrouped_proper => k s'; exact: mala_proper.
- apply: (multi_key_free mm (L := mL grad noise scale) (W := mW log_pdf grad ld scale log_H aux)) => key x f.
  by rewrite regrouped_joint; exact: (mala_joint log_pdf grad noise ld scale log_H mv key aux x f).
- by move=> x; exact: expR_gt0.
- by case: sm => [[_ rel gm ->]|[-> ->]]; [exact: mala_settles|exact: mala_settles_force].
Qed.

Lemma tp_positions (corr : X -> X -> X -> R) (post_sampling : key -> X -> prog {ffun 'I_N -> X}) (prior : X -> R)
    (post : X -> X -> R) :
  (forall u z, 0 < post u z) -> (forall x, 0 < prior x) ->
  (forall key u, samples_indep (post_sampling key u) (fun _ => post u)) ->
  (forall u, exists Z, forall x, prior x * noise (u - x) = Z * post u x) ->
  (forall u x g, noise (u - x) * exp (corr u x g) = noise (u - (x + scale g))) ->
  settles_positions cached (regrouped (tp1_kernel log_pdf grad noise scale mv corr post_sampling))
    (fun x => prior x * exp (log_pdf x)) bias.
Proof.
move=> h1 h2 h3 h4 h5; have fd := single_draws sm; have fb := single_bias sm; have mm := single_mixing sm.
apply: settles_positions_of => //.
- by move=> key x; exact: tp_coh.
- by move=> key x; apply: regrouped_proper => k s'; apply: tp1_proper => // k' u; have [] := h3 k' u.
- apply: (multi_key_free mm (L := tL grad noise scale post) (W := tW log_pdf grad corr)) => key x f.
  by rewrite regrouped_joint; exact: (tp1_joint log_pdf grad noise scale mv corr h3 key x f).
- by move=> x; apply: mulr_gt0 => //; exact: expR_gt0.
- case: sm => [[_ rel gm ->]|[-> ->]].
  + by apply: (@tp_settles1 X N log_pdf grad _ _ _ _ prior post).
  + by apply: (@tp_settles_force1 X N log_pdf grad _ _ _ _ prior post).
Qed.
End Mala.

Lemma imh_positions (X : finType) N (log_pdf : X -> R) prior_sampling (prior : X -> R) (mv : mover N.+1) (bias : R -> R) :
  (0 < N)%N -> single_move mv bias -> (forall x, 0 < prior x) ->
  (forall key, samples_indep (prior_sampling key) (fun _ => prior)) ->
  settles_positions log_pdf (imh_kernel log_pdf prior_sampling mv) (fun x => prior x * exp (log_pdf x)) bias.
Proof.
move=> N0 sm p0 ps; have fd := single_draws sm; have fb := single_bias sm; have mm := single_mixing sm.
apply: settles_positions_of => //.
- by move=> key x; exact: imh_coh.
- by move=> key x; apply: imh_proper => // k; have [] := ps k.
- apply: (multi_key_free mm (L := iL prior) (W := iW log_pdf)) => key x f.
  exact: (imh_joint log_pdf mv ps key x f).
- by move=> x; apply: mulr_gt0 => //; exact: expR_gt0.
- by case: sm => [[_ rel gm ->]|[-> ->]]; [exact: imh_settles1|exact: imh_settles_force1].
Qed.

(** ** The sampling loop of tp.py *)
Section Loop.
Variables (X : finType) (C : Type) (cached : X -> C) (K : key -> X * C -> prog (X * C * bool)).
Variables (target : X -> R) (bias : R -> R).
Hypothesis sp : settles_positions cached K target bias.

Lemma pairmap_zip (s : X * C * bool) (l : seq (X * C * bool)) :
  zip [seq x.1.1 | x <- l] [seq x.2 | x <- l] = [seq (z.1.2, z.2) | z <- pairmap (fun a b => (a.1.1, b.1.1, b.2)) s l].
Proof. by elim: l s => [|a l IH] s //=; rewrite (IH a). Qed.

Lemma tp_loop_moves : exists2 e, 0 < e <= 1 &
  forall key x n k (F : X * bool -> R) c, (0 < k)%N -> (0 < n)%N -> (forall z, `|F z| <= c) ->
    E (tp_sampling K key (x, cached x) n k)
      (fun out => if out is inl r then
         (average F (zip r.1 r.2) - position_mean cached K target (fun z => F (z.1.2, z.2))) ^+ 2 else 0)
    <= 16%:R * c ^+ 2 * (1 + 4%:R / e) / ((n + k.-1) %/ k)%:R + 8%:R * c * (bias c / e).
Proof.
have [_ [e e01 av]] := sp; exists e => // key x n k F c k0 n0 Fc.
have sk : size [seq split key i | i <- iota 0 n] = n by rewrite size_map size_iota.
have := av [seq split key i | i <- iota 0 n] k x (fun z => F (z.1.2, z.2)) c (fun z => Fc _) k0; rewrite sk => /(_ n0).
apply: le_trans; rewrite le_eqVlt; apply/orP; left; apply/eqP; rewrite tp_samplingE E_bind; apply: eq_E => l.
rewrite (negbTE (_ : k != 0%N)) -?lt0n //=; congr ((_ - _) ^+ 2).
rewrite thinned_zip ?size_map // (pairmap_zip (x, cached x, false)).
rewrite (AcceptProofs.thinned_map (fun z : X * X * bool => (z.1.2, z.2)) (x, x, false)) // average_map.
by [].
Qed.

Lemma tp_loop_acceptance : exists2 e, 0 < e <= 1 &
  forall key x n k, (0 < k)%N -> (0 < n)%N ->
    E (tp_sampling K key (x, cached x) n k)
      (fun out => if out is inl r then
         (average (fun b : bool => b%:R) r.2 - position_acceptance cached K target) ^+ 2 else 0)
    <= 16%:R * (1 + 4%:R / e) / ((n + k.-1) %/ k)%:R + 8%:R * (bias 1 / e).
Proof.
have [e e01 H] := tp_loop_moves; exists e => // key x n k k0 n0.
have := H key x n k (fun z => z.2%:R) 1 k0 n0; rewrite expr1n !mulr1 => h.
apply: le_trans (h _); last by move=> z; case: z.2; rewrite ?normr1 ?normr0.
rewrite le_eqVlt; apply/orP; left; apply/eqP; rewrite !tp_samplingE !E_bind; apply: eq_E => l.
rewrite (negbTE (_ : k != 0%N)) -?lt0n //=; congr ((_ - _) ^+ 2).
set u := thinned x k _; set v := thinned false k _.
have sz : size u = size v by rewrite /u /v !size_thinned !size_map.
by rewrite /average size_zip sz minnn -{1}(@unzip2_zip _ _ u v) ?sz // big_map.
Qed.
End Loop.

Lemma tp_acceptance_consistent (X : finType) (C : Type) (cached : X -> C) (K : key -> X * C -> prog (X * C * bool))
    (target : X -> R) (h eps : R) :
  settles_positions cached K target (fun=> 0) -> (forall key x, proper (K key (x, cached x))) ->
  (forall key x, always (fun r => r.1.2 = cached r.1.1) (K key (x, cached x))) -> 0 < h -> 0 < eps ->
  exists N, forall key x n k, (0 < k)%N -> (N * k <= n)%N ->
    Pr (tp_sampling K key (x, cached x) n k)
       (fun out => if out is inl r then
          h <= `|average (fun b : bool => b%:R) r.2 - position_acceptance cached K target| else false) <= eps.
Proof.
move=> sp pr coh h0 eps0; have [e e01 H] := tp_loop_acceptance sp; have [e0 _] := andP e01.
pose c : R := 16%:R * (1 + 4%:R / e).
have he : 0 < h ^+ 2 * eps by rewrite mulr_gt0 ?exprn_gt0.
have [N HN] := above (c / (h ^+ 2 * eps)).
exists N.+1 => key x n k k0 nk.
have n0 : (0 < n)%N by apply: leq_trans nk; rewrite muln_gt0.
have := H key x n k k0 n0; rewrite mul0r mulr0 addr0 -/c => H1.
rewrite -(ler_pmul2l (_ : 0 < h ^+ 2)) ?exprn_gt0 // -E_scale.
apply: le_trans (le_trans _ H1) _.
  apply: E_le => [|[r|r]]; last first.
  - by rewrite (_ : false%:R = 0) // mulr0.
  - set u := _ - _; case hl : (h <= `|u|)%R; last by rewrite (_ : false%:R = 0) // mulr0 sqr_ge0.
    rewrite (_ : true%:R = 1) // mulr1.
    rewrite -[X in _ <= X]ger0_norm ?sqr_ge0 // normrX; apply: ler_expn2r; rewrite ?nnegrE ?normr_ge0 //; exact: ltW.
  - rewrite tp_samplingE; apply: proper_bind => //.
    have : forall keys y b, proper (visited (fun key (r : X * C * bool) => K key r.1) keys (y, cached y, b)).
      elim=> [|k1 keys IH] y b //=; apply: proper_bind_always; first exact: pr.
      by apply: always_imp (coh k1 y) => -[[z w] b'] /= ->; apply: proper_bind.
    by apply.
have le : (N.+1 <= (n + k.-1) %/ k)%N by rewrite leq_divRL //; apply: leq_trans nk (leq_addr _ _).
rewrite ler_pdivr_mulr; last by rewrite ltr0n (leq_trans _ le).
apply: le_trans (_ : h ^+ 2 * eps * N.+1%:R <= _); last by apply: ler_wpmul2l; rewrite ?ler_nat // ltW.
rewrite mulrC -ler_pdivr_mulr //; apply: le_trans (_ : N%:R <= _); last by rewrite ler_nat.
exact: ltW.
Qed.

(** ** Examples *)
(** With a flat likelihood and Barker's move, imh.py accepts with probability N / (N + 1). *)
Lemma ex_imh_acceptance (X : finType) N prior_sampling (prior : X -> R) : (0 < N)%N ->
  (forall x, 0 < prior x) -> (forall key, samples_indep (prior_sampling key) (fun _ => prior)) ->
  position_acceptance (fun=> 0) (imh_kernel (fun=> 0) prior_sampling (@barker_move N.+1)) (fun x => prior x * exp 0)
  = N%:R / N.+1%:R.
Proof.
move=> N0 p0 ps; have [pr0 pr1] := priorP N0 ps.
have one x : Pr (imh_kernel (fun=> 0) prior_sampling (@barker_move N.+1) [::] (x, 0)) (fun r => r.2) = N%:R / N.+1%:R.
  rewrite /Pr; have := imh_joint (fun=> 0) (@barker_move N.+1) ps [::] x (fun _ b => b%:R); rewrite /imh_init => ->.
  transitivity (\sum_t \sum_y iL (N := N) prior x t y * (N%:R / N.+1%:R)); last first.
    by under eq_bigr do rewrite -mulr_suml; rewrite -mulr_suml iL1 ?mul1r //.
  apply: eq_bigr => t _; apply: eq_bigr => y _; congr (_ * _).
  have := @E_barker N.+1 (normalize (@iW X N (fun=> 0) t (front x y))) (normalize_prob _) (split [::] 1) ord0 (fun i => (i != ord0)%:R).
  rewrite E_index_of => ->.
  rewrite (eq_bigr (fun i : 'I_N.+1 => (i != ord0)%:R / N.+1%:R)); last first.
    move=> i _; rewrite normalizeE mulrC; congr (_ * _); rewrite /iW exp_0 sum_const card_ord mulr1.
    by rewrite mul1r.
  rewrite -mulr_suml; congr (_ / _); rewrite big_ord_recl eqxx add0r.
  by rewrite (eq_bigr (fun=> 1)) // sumr_const card_ord.
rewrite /position_acceptance /mean_under; under eq_bigr do rewrite one.
rewrite -mulr_suml mulrAC divff ?mul1r // -mulr_suml pr1 mul1r gt_eqF //; apply/RltE; exact: exp_pos.
Qed.

Lemma ex_single_moves N : single_move (@barker_move N.+1) (fun=> 0) /\ single_move (@force_move N.+1) (force_eps N.+1).
Proof. by split; [left; have [h1 h2 h3] := code_movers N|right]. Qed.

Lemma ex_single_noise :
  [/\ prob_vec hf, forall z, 0 < hf z & forall key u, samples_indep (unif_one key u) (fun _ => hf)].
Proof. by split; [exact: hf_prob|move=> z; exact: CsmcSpecs.half_gt0|exact: unif_one_indep]. Qed.

Lemma ex_imh_coherent (X : finType) N (log_pdf : X -> R) prior_sampling (prior : X -> R) : (0 < N)%N ->
  (forall key, samples_indep (prior_sampling key) (fun _ => prior)) ->
  (forall key x, proper (imh_kernel log_pdf prior_sampling (@barker_move N.+1) key (x, log_pdf x)))
  /\ (forall key x, always (fun r => r.1.2 = log_pdf r.1.1)
        (imh_kernel log_pdf prior_sampling (@barker_move N.+1) key (x, log_pdf x))).
Proof.
move=> N0 ps; have [sm _] := ex_single_moves N; split=> key x; last exact: imh_coh.
by apply: imh_proper => [k|]; [have [] := ps k|exact: (single_draws sm)].
Qed.
