(** * DiagnosticsProofs: proofs for C79 and C80. *)
From Coq Require Import Reals Lra.
From mathcomp Require Import all_ssreflect all_fingroup all_algebra.
From Verif Require Import RInst Diagnostics DiagnosticsSpec.

Set Implicit Arguments.
Unset Strict Implicit.
Unset Printing Implicit Defensive.
Import GRing.Theory Num.Theory Order.TTheory.
Local Open Scope ring_scope.

Local Arguments lags : simpl never.

Lemma natR_neq0 n : (0 < n)%N -> n%:R != 0 :> R.
Proof. by case: n => // n _; rewrite pnatr_eq0. Qed.

(** ** Sums of squares *)
Lemma sum_constR n (a : R) : \sum_(i < n) a = n%:R * a.
Proof. by rewrite sumr_const card_ord mulr_natl. Qed.

Lemma sum_square_diff n (x : nat -> R) :
  \sum_(i < n) \sum_(j < n) (x i - x j) ^+ 2 = 2%:R * (n%:R * (\sum_(i < n) x i ^+ 2) - (\sum_(i < n) x i) ^+ 2).
Proof.
have -> : \sum_(i < n) \sum_(j < n) (x i - x j) ^+ 2
  = \sum_(i < n) (n%:R * x i ^+ 2 + \sum_(j < n) x j ^+ 2 - 2%:R * (x i * \sum_(j < n) x j)).
  apply: eq_bigr => i _.
  have -> : n%:R * x i ^+ 2 = \sum_(j < n) x i ^+ 2 by rewrite sum_constR.
  rewrite !mulr_sumr -big_split /= -sumrB; apply: eq_bigr => j _.
  rewrite !expr2; move: (x i) (x j) => u v; toR; ring.
rewrite sumrB big_split /= -!mulr_sumr sum_constR -mulr_suml [X in _ = _ * (_ - X)]expr2.
by move: (\sum_(i < n) x i ^+ 2) (\sum_(i < n) x i) => u v; move: (n%:R : R) => k; toR; ring.
Qed.

Lemma sum_square_mean n (x : nat -> R) : (0 < n)%N ->
  \sum_(i < n) (x i - axis_mean n x) ^+ 2 = (\sum_(i < n) \sum_(j < n) (x i - x j) ^+ 2) / (2%:R * n%:R).
Proof.
move=> n0; rewrite sum_square_diff; set m := axis_mean n x.
have -> : \sum_(i < n) (x i - m) ^+ 2 = \sum_(i < n) (x i ^+ 2 + m ^+ 2 - 2%:R * (x i * m)).
  by apply: eq_bigr => i _; rewrite !expr2; move: (x i) m => u v; toR; ring.
rewrite sumrB big_split /= sum_constR -mulr_sumr -mulr_suml /m /axis_mean ![(_ / _) ^+ 2]expr2 [(\sum_(i < n) x i) ^+ 2]expr2.
have := natR_neq0 n0; move: (\sum_(i < n) x i ^+ 2) (\sum_(i < n) x i) => u v.
by move: (n%:R : R) => k /eqP k0; toR; field.
Qed.

Lemma auto_cov0 n x : auto_cov n x 0 = axis_mean n (fun i => (x i - axis_mean n x) ^+ 2).
Proof.
rewrite /auto_cov /axis_mean subn0; congr (_ / _).
by apply: eq_bigr => i _; rewrite addn0 expr2.
Qed.

Lemma auto_cov0_ge0 n x : 0 <= auto_cov n x 0.
Proof. by rewrite auto_cov0 /axis_mean divr_ge0 ?ler0n // sumr_ge0 // => i _; exact: sqr_ge0. Qed.

Lemma axis_mean_ge0 n (x : nat -> R) : (forall i, (i < n)%N -> 0 <= x i) -> 0 <= axis_mean n x.
Proof. by move=> h; rewrite divr_ge0 ?ler0n // sumr_ge0 // => i _; exact: h. Qed.

Lemma axis_mean_le n (x y : nat -> R) : (forall i, (i < n)%N -> x i <= y i) -> axis_mean n x <= axis_mean n y.
Proof. by move=> h; rewrite ler_wpmul2r ?invr_ge0 ?ler0n // ler_sum // => i _; exact: h. Qed.

Lemma axis_mean_scale n a x : axis_mean n (fun i => a * x i) = a * axis_mean n x.
Proof. by rewrite /axis_mean -mulr_sumr mulrA. Qed.

Lemma eq_axis_mean n x y : (forall i, (i < n)%N -> x i = y i) -> axis_mean n x = axis_mean n y.
Proof. by move=> h; congr (_ / _); apply: eq_bigr => i _; exact: h. Qed.

Lemma axis_mean_affine n a b x : (0 < n)%N -> axis_mean n (fun i => a * x i + b) = a * axis_mean n x + b.
Proof.
move=> n0; rewrite /axis_mean big_split /= sum_constR -mulr_sumr mulrDl mulrA.
by rewrite [_%:R * b]mulrC mulfK // natR_neq0.
Qed.

(** ** The lagged covariance is bounded by the variance *)
Lemma auto_cov_bound n x l : (l < n)%N -> `|auto_cov n x l| <= n%:R / (n - l)%:R * auto_cov n x 0.
Proof.
move=> ln; have n0 : (0 < n)%N by apply: leq_ltn_trans ln.
rewrite auto_cov0 /auto_cov /=; set m := axis_mean n x; rewrite /axis_mean.
have nl0 : (0 < n - l)%N by rewrite subn_gt0.
have k0 : (0 : R) < (n - l)%:R by rewrite ltr0n.
rewrite normrM normrV ?unitfE ?gt_eqF // (ger0_norm (ltW k0)).
have -> : n%:R / (n - l)%:R * ((\sum_(i < n) (x i - m) ^+ 2) / n%:R) = (\sum_(i < n) (x i - m) ^+ 2) / (n - l)%:R.
  have := natR_neq0 n0; have := natR_neq0 nl0; move: (\sum_(i < n) _) => u.
  by move: (n%:R : R) ((n - l)%:R : R) => k k' /eqP h1 /eqP h2; toR; field.
rewrite ler_wpmul2r ?invr_ge0 ?(ltW k0) //.
apply: le_trans (ler_norm_sum _ _ _) _.
apply: (@le_trans _ _ (\sum_(i < n - l) ((x i - m) ^+ 2 + (x (i + l)%N - m) ^+ 2) / 2%:R)).
  apply: ler_sum => i _; rewrite normrM; have := sqr_ge0 (`|x i - m| - `|x (i + l)%N - m|).
  rewrite -(real_normK (num_real (x i - m))) -(real_normK (num_real (x (i + l)%N - m))).
  move: (`|x i - m|) (`|x (i + l)%N - m|) => u v; rewrite !expr2 => h; toR; lra.
rewrite -mulr_suml big_split /=.
have h1 : \sum_(i < n - l) (x i - m) ^+ 2 <= \sum_(i < n) (x i - m) ^+ 2.
  rewrite -(big_mkord xpredT (fun i => (x i - m) ^+ 2)) -(big_mkord xpredT (fun i => (x i - m) ^+ 2)).
  rewrite [X in _ <= X](@big_cat_nat _ _ _ (n - l)) ?leq_subr //=.
  by rewrite ler_addl sumr_ge0 // => i _; exact: sqr_ge0.
have h2 : \sum_(i < n - l) (x (i + l)%N - m) ^+ 2 <= \sum_(i < n) (x i - m) ^+ 2.
  rewrite -(big_mkord xpredT (fun i => (x (i + l)%N - m) ^+ 2)) -(big_mkord xpredT (fun i => (x i - m) ^+ 2)).
  rewrite [X in _ <= X](@big_cat_nat _ _ _ l) ?(ltnW ln) //=.
  have -> : \sum_(l <= i < n) (x i - m) ^+ 2 = \sum_(0 <= i < n - l) (x (i + l)%N - m) ^+ 2.
    by rewrite -{1}[l]add0n big_addn.
  by rewrite ler_addr sumr_ge0 // => i _; exact: sqr_ge0.
by move: h1 h2; move: (\sum_(i < n - l) (x i - m) ^+ 2) (\sum_(i < n - l) (x (i + l)%N - m) ^+ 2)
  (\sum_(i < n) (x i - m) ^+ 2) => u v w h1 h2; toR; lra.
Qed.

(** ** The model computes the quantities of the spec *)
Section Within.
Variables (n C : nat) (x : nat -> nat -> R).
Hypotheses (n0 : (0 < n)%N) (C0 : (0 < C)%N).

Lemma chain_meanE c : chain_mean n x c = axis_mean n (x^~ c).
Proof. by rewrite /chain_mean /axis_mean mulrC. Qed.

Lemma lagged_mean l : axis_mean C (fun c => auto_cov n (x^~ c) l) = lagged n C x l.
Proof.
rewrite /axis_mean /lagged /auto_cov -mulr_suml invfM [C%:R^-1 * _]mulrC mulrA; congr (_ / _ / _).
by apply: eq_bigr => c _; apply: eq_bigr => i _; rewrite !chain_meanE.
Qed.

Lemma within_mean : axis_mean C (fun c => auto_cov n (x^~ c) 0) = within_chain n C x.
Proof.
rewrite /within_chain mulr_suml /axis_mean mulr_suml; apply: eq_bigr => c _.
rewrite auto_cov0 {1}/axis_mean sum_square_mean //.
have := natR_neq0 n0; have := natR_neq0 C0; move: (\sum_(i < n) \sum_(j < n) (x i c - x j c) ^+ 2) => u.
by rewrite expr2; move: (n%:R : R) (C%:R : R) => k K /eqP K0 /eqP k0; toR; field.
Qed.

Lemma within_ge0 : 0 <= within_chain n C x.
Proof. by rewrite -within_mean; apply: axis_mean_ge0 => c _; exact: auto_cov0_ge0. Qed.

Lemma lagged_bound l : (l < n)%N -> `|lagged n C x l| <= n%:R / (n - l)%:R * within_chain n C x.
Proof.
move=> ln; rewrite -lagged_mean -within_mean -axis_mean_scale /axis_mean normrM normrV ?unitfE ?natR_neq0 // normr_nat.
rewrite ler_wpmul2r ?invr_ge0 ?ler0n //; apply: le_trans (ler_norm_sum _ _ _) _.
by apply: ler_sum => c _; exact: auto_cov_bound.
Qed.

Lemma lagged0 : lagged n C x 0 = within_chain n C x.
Proof. by rewrite -lagged_mean within_mean. Qed.

Lemma within_eq0 : within_chain n C x = 0 <-> stuck n C x.
Proof.
have d0 : 2%:R * C%:R * n%:R ^+ 2 != 0 :> R by rewrite !mulf_neq0 ?expf_neq0 ?pnatr_eq0 -?lt0n.
split=> [|h].
  move/eqP; rewrite mulf_eq0 invr_eq0 (negbTE d0) orbF psumr_eq0; last first.
    by move=> c _; apply: sumr_ge0 => i _; apply: sumr_ge0 => j _; exact: sqr_ge0.
  move=> /allP h i j c ii jj cc; have := h (Ordinal cc) (mem_index_enum _).
  rewrite psumr_eq0 /=; last by move=> a _; apply: sumr_ge0 => b _; exact: sqr_ge0.
  move=> /allP /(_ (Ordinal ii) (mem_index_enum _)); rewrite psumr_eq0 /=; last by move=> b _; exact: sqr_ge0.
  by move=> /allP /(_ (Ordinal jj) (mem_index_enum _)) /=; rewrite sqrf_eq0 subr_eq0 => /eqP.
rewrite /within_chain big1 ?mul0r // => c _; rewrite big1 // => i _; rewrite big1 // => j _.
by rewrite (h i j c) // subrr expr0n.
Qed.

Lemma lag_lt L l : (l < size (lags n L))%N -> (l < n)%N.
Proof.
rewrite size_iota ltnS leq_min => /andP[h _]; apply: leq_ltn_trans h _; by rewrite ltn_predL.
Qed.

End Within.

Section Cross.
Variables (n C : nat) (x : nat -> nat -> R).
Hypotheses (n0 : (0 < n)%N) (C1 : (1 < C)%N).

Let C0 : (0 < C)%N. Proof. exact: ltnW C1. Qed.
Let Cm1 : C%:R - 1 != 0 :> R.
Proof. by rewrite subr_eq0 -[1]/(1%:R) eqr_nat; apply/eqP => h; move: C1; rewrite h. Qed.
Let Cm1_gt0 : 0 < C%:R - 1 :> R.
Proof. by rewrite subr_gt0 -[1]/(1%:R) ltr_nat. Qed.

Lemma between_variance : reduce_variance C (fun c => axis_mean n (x^~ c)) = Some (between_chains n C x).
Proof.
rewrite /reduce_variance (negbTE Cm1); congr Some.
rewrite {1}/axis_mean (sum_square_mean (fun c => axis_mean n (x^~ c))) // /between_chains.
have -> : \sum_(c < C) \sum_(d < C) (chain_mean n x c - chain_mean n x d) ^+ 2
  = \sum_(c < C) \sum_(d < C) (axis_mean n (x^~ c) - axis_mean n (x^~ d)) ^+ 2.
  by apply: eq_bigr => c _; apply: eq_bigr => d _; rewrite !chain_meanE.
have := natR_neq0 C0; have := Cm1; move: (\sum_(c < C) \sum_(d < C) _) => u.
by move: (C%:R : R) => K /eqP K1 /eqP K0; toR; field.
Qed.

Lemma between_ge0 : 0 <= between_chains n C x.
Proof.
rewrite divr_ge0 //; last by rewrite !mulr_ge0 ?ler0n // ltW.
by apply: sumr_ge0 => c _; apply: sumr_ge0 => d _; exact: sqr_ge0.
Qed.

Lemma crossE L : cross_chains_autocorr L n C x =
  if within_chain n C x + between_chains n C x == 0 then None
  else Some [seq (lagged n C x l + between_chains n C x) / (within_chain n C x + between_chains n C x) | l <- lags n L].
Proof.
rewrite /cross_chains_autocorr between_variance (within_mean x n0 C0); move: (lags n L) => s; rewrite /=; case: ifP => // /negbT v0.
congr Some; elim: s => //= l s <-; congr (_ :: _); rewrite lagged_mean.
move: v0; move: (within_chain n C x) (between_chains n C x) (lagged n C x l) => w b g /eqP v0; toR; field.
exact: v0.
Qed.

Lemma cross_some L r : cross_chains_autocorr L n C x = Some r ->
  within_chain n C x + between_chains n C x != 0 /\
  r = [seq (lagged n C x l + between_chains n C x) / (within_chain n C x + between_chains n C x) | l <- lags n L].
Proof.
rewrite crossE; case: ifP => // /negbT v0 h; split=> //.
by move: h => /(congr1 (oapp id [::])) h; rewrite -[r]/(oapp id [::] (Some r)) -h.
Qed.

(** ** When every entry is NaN *)
Lemma between_eq0 : between_chains n C x = 0 <-> forall c d, (c < C)%N -> (d < C)%N -> chain_mean n x c = chain_mean n x d.
Proof.
have d0 : 2%:R * C%:R * (C%:R - 1) != 0 :> R by rewrite !mulf_neq0 ?pnatr_eq0 -?lt0n.
split=> [|h].
  move/eqP; rewrite mulf_eq0 invr_eq0 (negbTE d0) orbF psumr_eq0; last first.
    by move=> c _; apply: sumr_ge0 => i _; exact: sqr_ge0.
  move=> /allP h c d cc dd; have := h (Ordinal cc) (mem_index_enum _).
  rewrite psumr_eq0 /=; last by move=> a _; exact: sqr_ge0.
  by move=> /allP /(_ (Ordinal dd) (mem_index_enum _)) /=; rewrite sqrf_eq0 subr_eq0 => /eqP.
rewrite /between_chains big1 ?mul0r // => c _; rewrite big1 // => d _.
by rewrite (h c d) // subrr expr0n.
Qed.

Lemma variance_eq0 : within_chain n C x + between_chains n C x = 0 <-> all_equal n C x.
Proof.
have sm c : stuck n C x -> (c < C)%N -> chain_mean n x c = x 0%N c.
  move=> h cc; rewrite /chain_mean (eq_bigr (fun=> x 0%N c)) ?sum_constR ?mulKf ?natR_neq0 // => i _.
  exact: h.
split=> [/eqP|h].
  rewrite paddr_eq0 ?(within_ge0 x n0 C0) ?between_ge0 // => /andP[/eqP/(within_eq0 x n0 C0) st /eqP/between_eq0 bt] i j c d ii jj cc dd.
  by rewrite (st i 0%N c) // (st j 0%N d) // -!sm // (bt c d).
have st : stuck n C x by move=> i j c ii jj cc; exact: h.
rewrite (proj2 (within_eq0 x n0 C0) st) add0r; apply/between_eq0 => c d cc dd; rewrite !sm //; exact: h.
Qed.

Lemma cross_none L : cross_chains_autocorr L n C x = None <-> all_equal n C x.
Proof. by rewrite crossE -variance_eq0; case: eqP. Qed.

Lemma cross_autocorr L r : cross_chains_autocorr L n C x = Some r -> is_autocorr (minn n.-1 L) n C x r.
Proof.
move=> /cross_some[_ ->]; split; first by rewrite size_map size_iota.
by move=> l lL; rewrite (nth_map 0%N) ?size_iota ?ltnS // nth_iota ?ltnS.
Qed.

Lemma cross_lag0 L r : cross_chains_autocorr L n C x = Some r -> r`_0 = 1.
Proof.
move=> /cross_some[v0 ->]; rewrite (nth_map 0%N) ?size_iota //= (lagged0 x n0 C0).
by rewrite divff.
Qed.

Lemma cross_bound L r l : cross_chains_autocorr L n C x = Some r -> (l < size r)%N ->
  `|r`_l| <= n%:R / (n - l)%:R.
Proof.
move=> /cross_some[v0 ->]; rewrite size_map => ls; rewrite (nth_map 0%N) //.
have lL := lag_lt n0 ls; move: ls; rewrite size_iota => ls; rewrite nth_iota // add0n.
have v1 : 0 < within_chain n C x + between_chains n C x.
  by rewrite lt_def v0 addr_ge0 ?(within_ge0 x n0 C0) ?between_ge0.
rewrite normrM normrV ?unitfE // (ger0_norm (ltW v1)) ler_pdivr_mulr // mulrDr.
apply: le_trans (ler_norm_add _ _) _; apply: ler_add; first exact: (lagged_bound _ n0 C0).
rewrite ger0_norm ?between_ge0 // ler_pemull ?between_ge0 // ler_pdivl_mulr ?ltr0n ?subn_gt0 // mul1r ler_nat.
exact: leq_subr.
Qed.

Lemma cross_stuck L r l : stuck n C x -> cross_chains_autocorr L n C x = Some r -> (l < size r)%N -> r`_l = 1.
Proof.
move=> st /cross_some[v0 ->]; rewrite size_map => ls; rewrite (nth_map 0%N) //.
have lL := lag_lt n0 ls; move: ls; rewrite size_iota => ls; rewrite nth_iota // add0n.
have w0 := proj2 (within_eq0 x n0 C0) st.
have -> : lagged n C x l = 0.
  by apply/eqP; have := lagged_bound x n0 C0 lL; rewrite w0 mulr0 normr_le0.
by rewrite -w0 divff.
Qed.
End Cross.

Lemma cross_one_chain L n x : cross_chains_autocorr L n 1 x = None.
Proof. by rewrite /cross_chains_autocorr /reduce_variance subrr eqxx. Qed.

(** ** Invariance *)
Lemma auto_cov_affine n a b (x y : nat -> R) l : (l < n)%N -> (forall i, (i < n)%N -> y i = a * x i + b) ->
  auto_cov n y l = a ^+ 2 * auto_cov n x l.
Proof.
move=> ln h; have n0 : (0 < n)%N by apply: leq_ltn_trans ln.
have m : axis_mean n y = a * axis_mean n x + b by rewrite -axis_mean_affine //; apply: eq_axis_mean.
rewrite /auto_cov m mulrA mulr_sumr; congr (_ / _); apply: eq_bigr => i _.
have hi : (i < n)%N by apply: leq_trans (ltn_ord i) (leq_subr _ _).
have hl : (i + l < n)%N by rewrite addnC -ltn_subRL.
rewrite !h // expr2; move: (x i) (x (i + l)%N) (axis_mean n x) => u v w; toR; ring.
Qed.

Lemma cross_affine L n C a b x y : (0 < n)%N -> (1 < C)%N -> a != 0 -> rescaled n C a b x y ->
  cross_chains_autocorr L n C y = cross_chains_autocorr L n C x.
Proof.
move=> n0 C1 a0 h; have C0 : (0 < C)%N := ltnW C1.
have cm c : (c < C)%N -> chain_mean n y c = a * chain_mean n x c + b.
  move=> cc; rewrite !chain_meanE -axis_mean_affine //; apply: eq_axis_mean => i ii; exact: h.
have la l : (l < n)%N -> lagged n C y l = a ^+ 2 * lagged n C x l.
  move=> ln; rewrite -!lagged_mean -axis_mean_scale; apply: eq_axis_mean => c cc.
  by apply: (@auto_cov_affine _ a b) => // i ii; exact: h.
have bt : between_chains n C y = a ^+ 2 * between_chains n C x.
  rewrite /between_chains mulrA; congr (_ / _); rewrite !mulr_sumr; apply: eq_bigr => c _.
  rewrite mulr_sumr; apply: eq_bigr => d _; rewrite !cm // !expr2.
  by move: (chain_mean n x c) (chain_mean n x d) => u v; toR; ring.
have a2 : a ^+ 2 != 0 by rewrite expf_neq0.
rewrite !crossE // -(lagged0 y n0 C0) -(lagged0 x n0 C0) la // bt -mulrDr mulf_eq0 (negbTE a2) orFb.
case: ifP => // /negbT v0; apply: (congr1 Some); apply/eq_in_map => l; rewrite mem_iota add0n /= ltnS leq_min => /andP[h1 _].
rewrite la; last by apply: leq_ltn_trans h1 _; rewrite ltn_predL.
by rewrite -mulrDr -mulf_div divff // mul1r.
Qed.

Lemma cross_reordered L n C s x y : (0 < n)%N -> (1 < C)%N -> @reordered n C s x y ->
  cross_chains_autocorr L n C y = cross_chains_autocorr L n C x.
Proof.
move=> n0 C1 h; have C0 : (0 < C)%N := ltnW C1.
have cm (c : 'I_C) : chain_mean n y c = chain_mean n x (s c).
  by congr (_ * _); apply: eq_bigr => i _; exact: h.
have la l : (l < n)%N -> lagged n C y l = lagged n C x l.
  move=> ln; congr (_ / _); rewrite [RHS](reindex_inj (@perm_inj _ s)) /=; apply: eq_bigr => c _.
  apply: eq_bigr => i _; rewrite cm !h //; first by rewrite addnC -ltn_subRL.
  by apply: leq_trans (ltn_ord i) (leq_subr _ _).
have bt : between_chains n C y = between_chains n C x.
  congr (_ / _); rewrite [RHS](reindex_inj (@perm_inj _ s)) /=; apply: eq_bigr => c _.
  by rewrite [RHS](reindex_inj (@perm_inj _ s)) /=; apply: eq_bigr => d _; rewrite !cm.
rewrite !crossE // -(lagged0 y n0 C0) -(lagged0 x n0 C0) la // bt.
case: ifP => // v0; apply: (congr1 Some); apply/eq_in_map => l; rewrite mem_iota add0n /= ltnS leq_min => /andP[h1 _].
by rewrite la //; apply: leq_ltn_trans h1 _; rewrite ltn_predL.
Qed.

(** ** One chain *)
Section One.
Variables (n : nat) (x : nat -> R).
Hypothesis n0 : (0 < n)%N.
Local Notation y := (fun i (_ : nat) => x i).

Lemma lagged_one l : lagged n 1 y l = auto_cov n x l.
Proof. by rewrite -lagged_mean /axis_mean big_ord1 divr1. Qed.

Lemma within_one : within_chain n 1 y = auto_cov n x 0.
Proof. by rewrite -within_mean // /axis_mean big_ord1 divr1. Qed.

Lemma corr_some L r : auto_correlation L n x = Some r ->
  auto_cov n x 0 != 0 /\ r = [seq auto_cov n x l / auto_cov n x 0 | l <- lags n L].
Proof.
rewrite /auto_correlation; case: ifP => // /negbT v0 h; split=> //.
by move: h => /(congr1 (oapp id [::])) h; rewrite -[r]/(oapp id [::] (Some r)) -h.
Qed.

Lemma corr_autocorr L r : auto_correlation L n x = Some r -> is_chain_autocorr (minn n.-1 L) n x r.
Proof.
move=> /corr_some[_ ->]; split; first by rewrite size_map size_iota.
by move=> l lL; rewrite lagged_one within_one (nth_map 0%N) ?size_iota ?ltnS // nth_iota ?ltnS.
Qed.

Lemma corr_lag0 L r : auto_correlation L n x = Some r -> r`_0 = 1.
Proof. by move=> /corr_some[v0 ->]; rewrite (nth_map 0%N) ?size_iota //= divff. Qed.

Lemma corr_bound L r l : auto_correlation L n x = Some r -> (l < size r)%N -> `|r`_l| <= n%:R / (n - l)%:R.
Proof.
move=> /corr_some[v0 ->]; rewrite size_map => ls; rewrite (nth_map 0%N) //.
have lL := lag_lt n0 ls; move: ls; rewrite size_iota => ls; rewrite nth_iota // add0n.
have v1 : 0 < auto_cov n x 0 by rewrite lt_def v0 auto_cov0_ge0.
by rewrite normrM normrV ?unitfE // (ger0_norm (ltW v1)) ler_pdivr_mulr //; exact: auto_cov_bound.
Qed.

Lemma corr_none L : auto_correlation L n x = None <-> stuck n 1 y.
Proof.
rewrite -within_eq0 // within_one /auto_correlation; by case: eqP.
Qed.
End One.

(** ** The effective sample size *)
Lemma ess_maskE r k : ess_mask r k = (k < find (fun v => v < 0) r)%:R \/ (size r <= k)%N.
Proof.
case: (leqP (size r) k) => [|kr]; [by right|left]; rewrite /ess_mask.
have := has_take_leq (fun v => v < 0) kr; rewrite has_count ltnS; case: (ltnP k (find _ r)) => h.
  by case: (count _ _) => // _; rewrite subr0; apply/max_idPl; rewrite ler01.
by move=> c1; apply/max_idPr; rewrite subr_le0 -[1]/(1%:R) ler_nat; exact: c1.
Qed.

Lemma ess_sum n (r : seq R) : (0 < n)%N -> r`_0 = 1 -> (0 < size r)%N ->
  2%:R * (\sum_(k < size r) (n%:R - k%:R) / n%:R * r`_k * ess_mask r k) - 1
  = 1 + 2%:R * \sum_(1 <= k < find (fun v => v < 0) r) (1 - k%:R / n%:R) * r`_k.
Proof.
move=> n0 r0 sr; set K := find _ r.
have Kr : (K <= size r)%N := find_size _ _.
have K0 : (0 < K)%N.
  rewrite /K; case: r r0 {sr K Kr} => [|a r] /=; first by move/eqP; rewrite eq_sym oner_eq0.
  by move=> ->; rewrite ltr10.
have -> : \sum_(k < size r) (n%:R - k%:R) / n%:R * r`_k * ess_mask r k
  = \sum_(0 <= k < K) (1 - k%:R / n%:R) * r`_k.
  rewrite -(big_mkord xpredT (fun k => (n%:R - k%:R) / n%:R * r`_k * ess_mask r k)) (@big_cat_nat _ _ _ K) //=.
  rewrite [X in _ + X]big_nat_cond [X in _ + X]big1 ?addr0; last first.
    move=> k /andP[/andP[h1 h2] _]; case: (ess_maskE r k) => [->|]; last by rewrite leqNgt h2.
    by rewrite ltnNge h1 mulr0.
  rewrite big_nat_cond [RHS]big_nat_cond; apply: eq_bigr => k /andP[/andP[_ h] _].
  case: (ess_maskE r k) => [->|]; last by rewrite leqNgt (leq_trans h Kr).
  by rewrite h mulr1 mulrBl divff ?natR_neq0.
rewrite big_ltn // r0 mul0r subr0 mul1r; move: (\sum_(1 <= k < K) _) => u; toR; lra.
Qed.

Lemma ess_is n C (r : seq R) : (0 < n)%N -> (0 < C)%N -> r`_0 = 1 -> (0 < size r)%N ->
  is_ess n r (ess_formula n C r / C%:R).
Proof.
move=> n0 C0 r0 sr; exists (find (fun v => v < 0) r).
  split; first exact: find_size.
    by move=> k h; rewrite leNgt; apply/negbT; exact: (before_find 0 h).
  by rewrite -has_find => h; exact: (nth_find 0 h).
by rewrite /ess_formula [-1 + _]addrC ess_sum // -[C%:R * _ / _]mulrA [C%:R * _]mulrC mulfK // natR_neq0.
Qed.

Lemma ess_bounds n (r : seq R) e : (0 < n)%N -> size r = n -> r`_0 = 1 ->
  (forall k, (k < n)%N -> `|r`_k| <= n%:R / (n - k)%:R) -> is_ess n r e ->
  n%:R / (2%:R * n%:R - 1) <= e <= n%:R.
Proof.
move=> n0 sr r0 b [K [Kr pos _] ->].
have term k : (k < K)%N -> 0 <= (1 - k%:R / n%:R) * r`_k <= 1.
  move=> kK; have kn : (k < n)%N by rewrite -sr; apply: leq_trans kK Kr.
  have nk : 0 < (n - k)%:R :> R by rewrite ltr0n subn_gt0.
  have -> : 1 - k%:R / n%:R = (n - k)%:R / n%:R :> R by rewrite natrB 1?ltnW // mulrBl divff ?natR_neq0.
  rewrite mulr_ge0 ?pos ?divr_ge0 ?ler0n //=.
  have : r`_k <= n%:R / (n - k)%:R by apply: le_trans (b k kn); rewrite ler_norm.
  rewrite -(ler_pmul2l (divr_gt0 nk (_ : 0 < n%:R))) ?ltr0n // => /le_trans; apply.
  by rewrite mulrA divfK ?natR_neq0 // divff ?gt_eqF.
have s0 : 0 <= \sum_(1 <= k < K) (1 - k%:R / n%:R) * r`_k.
  by rewrite big_nat_cond sumr_ge0 // => k /andP[/andP[_ h] _]; case/andP: (term k h).
have s1 : \sum_(1 <= k < K) (1 - k%:R / n%:R) * r`_k <= n%:R - 1.
  apply: (@le_trans _ _ (\sum_(1 <= k < K) 1)).
    by rewrite big_nat_cond [X in _ <= X]big_nat_cond; apply: ler_sum => k /andP[/andP[_ h] _]; case/andP: (term k h).
  rewrite big_const_nat iter_addr_0 -(natrB _ n0) ler_nat.
  by rewrite leq_sub2r // -sr.
move: s0 s1; have : 1 <= n%:R :> R by rewrite -[1]/(1%:R) ler_nat.
move: (\sum_(1 <= k < K) (1 - k%:R / n%:R) * r`_k) => u; move: (n%:R : R) => k k1 u0 u1.
have d0 : 0 < 1 + 2%:R * u by toR; lra.
have e0 : 0 < 2%:R * k - 1 by toR; lra.
apply/andP; split.
  by rewrite ler_pdivr_mulr // mulrAC ler_pdivl_mulr // ler_pmul2l; toR; lra.
by rewrite ler_pdivr_mulr //; apply: ler_pemulr; toR; lra.
Qed.

Section Ess.
Variables (n M : nat) (x : nat -> nat -> R).
Hypotheses (n0 : (0 < n)%N) (M0 : (0 < M)%N).

Lemma samples_ess_none : samples_ess n M x = None <-> all_equal n M x.
Proof.
rewrite /samples_ess; case: ltnP => h.
  by rewrite -(cross_none x n0 h n.-1); case: cross_chains_autocorr.
have -> : M = 1%N by apply/eqP; rewrite eqn_leq h M0.
have := corr_none (x^~ 0%N) n0 n.-1; case: auto_correlation => [r|] [h1 h2]; split=> // h3.
  have : Some r = None by apply: h2 => i j c ii jj _; exact: h3.
  by [].
by move=> i j c d ii jj; rewrite !ltnS !leqn0 => /eqP -> /eqP ->; apply: (h1 erefl i j 0%N).
Qed.

Lemma samples_ess_is e : samples_ess n M x = Some e ->
  exists2 r, (if (1 < M)%N then is_autocorr n.-1 n M x r else is_chain_autocorr n.-1 n (x^~ 0%N) r) & is_ess n r e.
Proof.
rewrite /samples_ess; case: ltnP => h.
  case E : cross_chains_autocorr => [r|] //= [<-]; exists r.
    by have := cross_autocorr n0 h E; rewrite minnn.
  apply: ess_is => //; first exact: cross_lag0 E.
  by have [-> _] := cross_autocorr n0 h E.
case E : auto_correlation => [r|] //= [<-]; exists r; first by have := corr_autocorr n0 E; rewrite minnn.
rewrite -[ess_formula n 1 r]divr1; apply: ess_is => //; first exact: corr_lag0 E.
by have [-> _] := corr_autocorr n0 E.
Qed.

Lemma samples_ess_bounds e : samples_ess n M x = Some e -> n%:R / (2%:R * n%:R - 1) <= e <= n%:R.
Proof.
rewrite /samples_ess; case: ltnP => h.
  case E : cross_chains_autocorr => [r|] //= [<-].
  have [sr _] := cross_autocorr n0 h E; have r0 := cross_lag0 n0 h E.
  have sn : size r = n by rewrite sr minnn prednK.
  apply: (@ess_bounds n r) => //; last by apply: ess_is; rewrite ?sn.
  by move=> k kn; apply: (cross_bound n0 h E); rewrite sn.
case E : auto_correlation => [r|] //= [<-].
have [sr _] := corr_autocorr n0 E; have r0 := corr_lag0 E.
have sn : size r = n by rewrite sr minnn prednK.
apply: (@ess_bounds n r) => //; last by rewrite -[ess_formula n 1 r]divr1; apply: ess_is; rewrite ?sn.
by move=> k kn; apply: (corr_bound n0 E); rewrite sn.
Qed.

Lemma samples_ess_affine a b y : a != 0 -> rescaled n M a b x y -> samples_ess n M y = samples_ess n M x.
Proof.
move=> a0 h; rewrite /samples_ess; case: ltnP => hM; first by rewrite (cross_affine n.-1 n0 hM a0 h).
have ac l : (l < n)%N -> auto_cov n (y^~ 0%N) l = a ^+ 2 * auto_cov n (x^~ 0%N) l.
  by move=> ln; apply: (@auto_cov_affine _ a b) => // i ii; exact: h.
have a2 : a ^+ 2 != 0 by rewrite expf_neq0.
congr omap; rewrite /auto_correlation ac // mulf_eq0 (negbTE a2) orFb.
case: ifP => // /negbT v0; apply: (congr1 Some); apply/eq_in_map => l; rewrite mem_iota add0n /= ltnS minnn => h1.
rewrite ac; last by apply: leq_ltn_trans h1 _; rewrite ltn_predL.
by rewrite -mulf_div divff // mul1r.
Qed.

(** ** The recorded autocorrelations *)
Lemma samples_acf_none : samples_acf n M x = None <-> exists2 c, (c < M)%N & stuck n 1 (fun i _ => x i c).
Proof.
rewrite /samples_acf; case: allP => h; split=> //.
  move=> [c cM st]; have := h c; rewrite mem_iota add0n => /(_ cM).
  by rewrite (proj2 (corr_none (x^~ c) n0 N_LAGS) st).
move=> _; apply: Classical_Prop.NNPP => ne; apply: h => c; rewrite mem_iota add0n /= => cM.
case E : auto_correlation => //; case: ne; exists c => //; exact: (proj1 (corr_none (x^~ c) n0 N_LAGS) E).
Qed.

Lemma samples_acf_is r : samples_acf n M x = Some r ->
  size r = (minn n.-1 N_LAGS).+1 /\ forall l, (l <= minn n.-1 N_LAGS)%N ->
  r`_l = M%:R^-1 * \sum_(c < M) lagged n 1 (fun i _ => x i c) l / within_chain n 1 (fun i _ => x i c).
Proof.
rewrite /samples_acf; case: allP => h // /(congr1 (oapp id [::])); rewrite /oapp => <-.
split=> [|l hl]; first by rewrite size_map size_iota.
rewrite (nth_map 0%N) ?size_iota // nth_iota // add0n /axis_mean mulrC; congr (_ * _); apply: eq_bigr => c _.
have := h c; rewrite mem_iota add0n ltn_ord => /(_ isT).
case E : auto_correlation => [s|] // _; have [_ /(_ l)] := corr_autocorr n0 E; exact.
Qed.

Lemma samples_acf_lag0 r : samples_acf n M x = Some r -> r`_0 = 1.
Proof.
move=> E; have [_ /(_ 0%N (leq0n _)) ->] := samples_acf_is E.
rewrite (eq_bigr (fun=> 1)) => [|c _]; first by rewrite sum_constR mulr1 mulVf // natR_neq0.
rewrite lagged0 // divff //; apply/eqP => /(within_eq0 _ n0 (ltn0Sn 0)) st.
suff : samples_acf n M x = None by rewrite E.
by apply/samples_acf_none; exists c.
Qed.
End Ess.

Lemma saved_acf_ok n M x r : (0 < n)%N -> (0 < M)%N -> samples_acf n M x = Some r ->
  saved_acf r = if (N_LAGS < n)%N then Some r else if n == 1%N then Some (nseq N_LAGS.+1 1) else None.
Proof.
move=> n0 M0 E; have [sr _] := samples_acf_is n0 E; have r0 := samples_acf_lag0 n0 M0 E.
rewrite /saved_acf /fits sr eqSS; case: ltnP => h.
  by have -> : minn n.-1 N_LAGS = N_LAGS; [apply/minn_idPr; rewrite -ltnS prednK|rewrite eqxx].
have -> : minn n.-1 N_LAGS = n.-1 by apply/minn_idPl; apply: leq_trans h; exact: leq_pred.
have -> : (n.-1 == N_LAGS) = false by apply/negbTE; rewrite neq_ltn; apply/orP; left; rewrite prednK.
have {sr} : size r = n by rewrite sr (_ : minn _ _ = n.-1) ?prednK //; apply/minn_idPl; apply: leq_trans h; exact: leq_pred.
case: r r0 {E} => [|a [|b r]] /=; first by move=> _ hn; move: n0; rewrite -hn.
  by move=> -> <-.
by move=> _ <-.
Qed.

Lemma saved_rates_ok (T : nat) (v : seq R) : (0 < T)%N ->
  saved_pct T v = saved_delta T v /\
  (saved_pct T v = None <-> size v <> T /\ size v <> 1%N) /\
  forall r, saved_pct T v = Some r -> size r = T /\ forall t, (t < T)%N -> r`_t = v`_(if size v == T then t else 0%N).
Proof.
move=> T0; split=> //; rewrite /saved_pct /fits; case: (size v =P T) => [e|ne].
  by split=> [|r [<-]]; [split=> // -[]|].
case: v ne => [|a [|b v]] ne.
- by split=> // _; split.
- by split=> [|r [<-]]; [split=> // -[]|rewrite size_nseq; split=> // t tT; rewrite nth_nseq tT].
by split=> // _; split.
Qed.
