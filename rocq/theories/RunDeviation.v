(** * RunDeviation: the standard deviations recorded by the whole stochastic volatility experiment. *)
From Coq Require Import Reals Lra FunctionalExtensionality.
From mathcomp Require Import all_ssreflect all_algebra.
From Verif Require Import RInst Prog ProgTheory Spec ErgodicSpec ErgodicChain ErgodicSweep ErgodicFinal ErgodicSingleSpec.
From Verif Require Import EsjdFinal Runs RunSpec RunProofs.

Set Implicit Arguments.
Unset Strict Implicit.
Unset Printing Implicit Defensive.
Import GRing.Theory Num.Theory Order.TTheory.
Local Open Scope ring_scope.

(** ** Means *)
Section Means.
Variables (Z : Type) (m : (Z -> R) -> R).
Hypothesis mm : is_mean m.

Lemma mean_const a : m (fun=> a) = a.
Proof.
have [lin _ one] := mm; transitivity (m (fun=> a * 1 + 0 * 1)).
  by congr m; apply: functional_extensionality => z; rewrite mulr1 mul0r addr0.
by rewrite (lin a 0 (fun=> 1) (fun=> 1)) one mulr1 mul0r addr0.
Qed.

Lemma mean_bound f c : (forall z, `|f z| <= c) -> `|m f| <= c.
Proof.
have [_ mon _] := mm => fc; rewrite ler_norml -{1}[- c]mean_const -{2}[c]mean_const.
by apply/andP; split; apply: mon => z; have := fc z; rewrite ler_norml => /andP[].
Qed.

Lemma mean_square f : m (fun z => (f z - m f) ^+ 2) = m (fun z => f z ^+ 2) - m f ^+ 2.
Proof.
have [lin _ _] := mm; set a := m f.
have -> : (fun z => (f z - a) ^+ 2) = (fun z => 1 * f z ^+ 2 + 1 * (- (2%:R * a) * f z + a ^+ 2 * 1)).
  by apply: functional_extensionality => z; move: (f z) => u; rewrite !expr2; Rring.
rewrite lin (lin (- (2%:R * a)) (a ^+ 2) f (fun=> 1)) -/a (mean_const 1) !expr2.
by move: (m _) => u; Rring.
Qed.

Lemma variance_ge0 f : 0 <= m (fun z => (f z - m f) ^+ 2).
Proof. by have [_ mon _] := mm; rewrite -{1}(mean_const 0); apply: mon => z; exact: sqr_ge0. Qed.
End Means.

Lemma sqrt_dist (a b : R) : 0 <= a -> 0 <= b -> (sqrt a - sqrt b) ^+ 4 <= (a - b) ^+ 2.
Proof.
move=> a0 b0; have sa : sqrt a ^+ 2 = a by rewrite expr2; apply: sqrt_sqrt; apply/RleE.
have sb : sqrt b ^+ 2 = b by rewrite expr2; apply: sqrt_sqrt; apply/RleE.
have ga : 0 <= sqrt a by apply/RleE; exact: sqrt_pos.
have gb : 0 <= sqrt b by apply/RleE; exact: sqrt_pos.
rewrite -{2}sa -{2}sb subr_sqr exprMn (_ : 4 = 2 + 2)%N // exprD.
apply: ler_wpmul2l; first exact: sqr_ge0.
rewrite -[X in X <= _]ger0_norm ?sqr_ge0 // normrX -[X in _ <= X]ger0_norm ?sqr_ge0 // normrX.
apply: ler_expn2r; rewrite ?nnegrE ?normr_ge0 //.
by rewrite [X in _ <= X]ger0_norm ?addr_ge0 //; apply: le_trans (ler_norm_sub _ _) _; rewrite !ger0_norm.
Qed.

Section Two.
Variables (Z : Type) (m1 m2 : (Z -> R) -> R) (f : Z -> R) (c : R).
Hypotheses (h1 : is_mean m1) (h2 : is_mean m2) (fc : forall z, `|f z| <= c).

Lemma deviation_dist : (deviation m1 f - deviation m2 f) ^+ 4
  <= 2%:R * (m1 (fun z => f z ^+ 2) - m2 (fun z => f z ^+ 2)) ^+ 2 + 8%:R * c ^+ 2 * (m1 f - m2 f) ^+ 2.
Proof.
apply: le_trans (sqrt_dist (variance_ge0 h1 f) (variance_ge0 h2 f)) _; rewrite !mean_square //.
have [b1 b2] : `|m1 f| <= c /\ `|m2 f| <= c by split; exact: mean_bound.
move: b1 b2; move: (m1 f) (m2 f) (m1 (fun z => f z ^+ 2)) (m2 (fun z => f z ^+ 2)) => a b u v b1 b2.
have -> : u - a ^+ 2 - (v - b ^+ 2) = (u - v) - (a + b) * (a - b) by rewrite !expr2; Rring.
have sq (x y : R) : (x - y) ^+ 2 <= 2%:R * x ^+ 2 + 2%:R * y ^+ 2.
  rewrite -subr_ge0 (_ : _ - _ = (x + y) ^+ 2) ?sqr_ge0 //; by rewrite !expr2; Rring.
apply: le_trans (sq _ _) _; rewrite ler_add2l exprMn mulrA; apply: ler_wpmul2r; first exact: sqr_ge0.
have -> : 8%:R * c ^+ 2 = 2%:R * (2%:R * c) ^+ 2 by rewrite !expr2; Rring.
apply: ler_wpmul2l; first exact: ler0n.
rewrite -[X in X <= _]ger0_norm ?sqr_ge0 // normrX.
have c0 : 0 <= c by apply: le_trans b1.
apply: ler_expn2r; rewrite ?nnegrE ?normr_ge0 ?mulr_ge0 ?ler0n //.
by apply: le_trans (ler_norm_add _ _) _; rewrite mulr2n mulrDl mul1r; exact: ler_add.
Qed.
End Two.

(** ** The means at hand *)
Lemma average_mean (Z : Type) (l : seq Z) : (0 < size l)%N -> is_mean (fun f => average f l).
Proof.
move=> l0; have n0 : (0 : R) < (size l)%:R by rewrite ltr0n.
split=> [a b f g|f g fg|]; rewrite /average.
- by rewrite big_split /= -!mulr_sumr mulrDl !mulrA.
- by apply: ler_wpmul2r; [rewrite invr_ge0 ltW|apply: ler_sum].
by rewrite big_const_seq count_predT iter_addr addr0 divff ?gt_eqF.
Qed.

Lemma under_mean (X : finType) (target : X -> R) : (forall x, 0 <= target x) -> 0 < \sum_x target x ->
  is_mean (fun f => mean_under target f).
Proof.
move=> t0 s0; split=> [a b f g|f g fg|]; rewrite /mean_under.
- rewrite !mulrA -mulrDl; congr (_ / _); rewrite !mulr_sumr -big_split; apply: eq_bigr => x _ /=.
  by rewrite mulrDr !(mulrCA (target x)).
- apply: ler_wpmul2r; first by rewrite invr_ge0 ltW.
  by apply: ler_sum => x _; apply: ler_wpmul2l.
by under eq_bigr do rewrite mulr1; rewrite divff ?gt_eqF.
Qed.

Lemma path_is_mean (X : finType) (m : nat) (target : X -> seq X -> R) : (forall x xs, 0 <= target x xs) ->
  0 < path_sum m target -> is_mean (fun f => path_mean m target f).
Proof.
move=> t0 s0; have E f : path_mean m target f = mean_under (fun y : m.+1.-tuple X => target (thead y) (behead y)) (fun y => f (tval y)).
  rewrite /path_mean /mean_under !path_sumE; congr (_ / _); apply: eq_bigr => y _; congr (_ * f _).
  by rewrite {3}[y]tuple_eta.
have [l1 l2 l3] := @under_mean _ (fun y : m.+1.-tuple X => target (thead y) (behead y)) (fun y => t0 _ _)
  (eq_ind _ (fun v => 0 < v) s0 _ (path_sumE _ _)).
split=> [a b f g|f g fg|]; rewrite !E; [exact: l1|by apply: l2 => y; exact: fg|exact: l3].
Qed.

Lemma path_target_mean (X : finType) (Q : Type) (G0 : X -> R) (Gt : X -> X -> Q -> R) (qs : seq Q) (m : nat) : (0 < #|X|)%N ->
  is_mean (fun f => path_mean m (path_target G0 Gt qs) f).
Proof.
move=> /card_gt0P [x _]; apply: path_is_mean => [y ys|]; first by apply: ltW; exact: EsjdFinal.path_target_gt0.
rewrite path_sumE (bigD1 [tuple of nseq m.+1 x]) //=; apply: ltr_paddr; last exact: EsjdFinal.path_target_gt0.
by apply: sumr_ge0 => y _; apply: ltW; exact: EsjdFinal.path_target_gt0.
Qed.

(** ** Recorded standard deviations *)
Lemma E_le_al A (p : prog A) f g : proper p -> always (fun a => f a <= g a) p -> E p f <= E p g.
Proof.
elim: p => [a|k C q h IH] //= [p0 p1 pr] al.
by apply: ler_sum => c _; apply: ler_wpmul2l => //; exact: IH.
Qed.

Lemma np_meanE (Z : Type) (f : Z -> R) l : np_mean f l = average f l. Proof. by []. Qed.
Lemma np_stdE (Z : Type) (f : Z -> R) l : np_std f l = deviation (fun f => average f l) f.
Proof.
rewrite /np_std /deviation np_meanE; congr sqrt; rewrite /average /np_mean; congr (_ / _).
by apply: eq_bigr => z _; rewrite -normrX ger0_norm ?sqr_ge0.
Qed.

Section Run.
Variables (D Z : Type) (mean : D -> (Z -> R) -> R) (bias : R -> R).
Variable run : nat -> nat -> key -> nat -> nat -> prog (unit * seq (seq (D * seq Z))).
Hypotheses (snd : sound_run mean bias run) (mm : forall d, is_mean (mean d)).

Lemma nth_lin (A : Type) (F G H : A -> R) a b l i : all (fun x => F x <= a * G x + b * H x) l ->
  nth 0 [seq F x | x <- l] i <= a * nth 0 [seq G x | x <- l] i + b * nth 0 [seq H x | x <- l] i.
Proof. by elim: l i => [|x l IH] [|i] //=; rewrite ?mulr0 ?addr0 // => /andP[// _ /IH]. Qed.

Lemma run_deviations : deviations_converge mean bias (@np_std Z) run.
Proof.
have [conv full pr _] := snd => key K; have [e e01 he] := conv key K; exists e => // M b n i j f c li lj n0 fc.
have h1 := he M b n i j f c li lj n0 fc.
have c2 d z : `|f d z ^+ 2| <= c ^+ 2.
  by rewrite normrX; apply: ler_expn2r; rewrite ?nnegrE ?normr_ge0 //; apply: le_trans (fc d z).
have h2 := he M b n i j (fun d z => f d z ^+ 2) (c ^+ 2) li lj n0 c2.
set U := E _ _ in h1; set V := E _ _ in h2.
apply: le_trans (_ : 2%:R * V + 8%:R * c ^+ 2 * U <= _); last first.
  have g2 : 2%:R * V <= 2%:R * (4%:R * (c ^+ 2) ^+ 2 * (1 + 2%:R / e) / n%:R + 4%:R * c ^+ 2 * (bias (c ^+ 2) / e)).
    by apply: ler_wpmul2l => //; exact: ler0n.
  have g1 : 8%:R * c ^+ 2 * U <= 8%:R * c ^+ 2 * (4%:R * c ^+ 2 * (1 + 2%:R / e) / n%:R + 4%:R * c * (bias c / e)).
    by apply: ler_wpmul2l => //; rewrite mulr_ge0 ?ler0n ?sqr_ge0.
  apply: le_trans (ler_add g2 g1) _; rewrite le_eqVlt; apply/orP; left; apply/eqP.
  have -> : c ^+ 4 = c ^+ 2 * c ^+ 2 by rewrite -exprD.
  have -> : c ^+ 3 = c ^+ 2 * c by rewrite -exprSr.
  move: (1 + _) (bias (c ^+ 2) / e) (bias c / e) (n%:R^-1) => u v w x; rewrite !expr2.
  by Rring.
rewrite -!E_scale -E_add; apply: E_le_al => //.
apply: always_imp (full b n key K M) => out [_ /(all_nthP [::]) al]; rewrite /of_chain.
have [lt|ge] := ltnP i (size out.2); last by rewrite (nth_default [::] ge) nth_nil !mulr0 addr0.
have /andP[_ al2] := al i lt; apply: nth_lin; apply: sub_all al2 => -[d l] /= /eqP sl.
by rewrite np_stdE; apply: deviation_dist => //; apply: average_mean; rewrite sl.
Qed.

Lemma run_deviations_consistent : (forall c, bias c = 0) -> deviations_consistent mean (@np_std Z) run.
Proof.
move=> b00 key K h eps c h0 eps0; have [_ _ pr _] := snd; have [e e01 he] := run_deviations key K.
have [e0 _] := andP e01.
pose C : R := 40%:R * c ^+ 4 * (1 + 2%:R / e).
have hp : 0 < h ^+ 4 * eps by rewrite mulr_gt0 ?exprn_gt0.
have [N HN] := above (C / (h ^+ 4 * eps)).
exists N.+1 => M b n i j f li lj nN fc.
have n0 : (0 < n)%N by apply: leq_trans nN.
have := he M b n i j f c li lj n0 fc; rewrite !b00 !mul0r !mulr0 !addr0 -/C => le.
rewrite -(ler_pmul2l (_ : 0 < h ^+ 4)) ?exprn_gt0 // -E_scale.
apply: le_trans (_ : C / n%:R <= _); last first.
  rewrite ler_pdivr_mulr ?ltr0n // mulrC -ler_pdivr_mulr //; apply: le_trans (ltW HN) _.
  by rewrite ler_nat; apply: ltnW.
apply: le_trans le; apply: E_le; first exact: pr.
move=> out; rewrite /of_chain; set l := nth [::] out.2 i.
have [lt|ge] := ltnP j (size l); last by rewrite !nth_default ?size_map // mulr0.
case: l lt => // a0 l lt; rewrite !(nth_map a0) //; set a := nth a0 _ j; set x := np_std _ _ - _.
have x4 : x ^+ 4 = `|x| ^+ 4 by rewrite -normrX ger0_norm // (_ : 4 = 2 * 2)%N // exprM sqr_ge0.
case hl : (h <= `|x|)%R; last by rewrite (_ : false%:R = 0) // mulr0 x4 exprn_ge0.
rewrite (_ : true%:R = 1) // mulr1 x4.
by apply: ler_expn2r; rewrite ?nnegrE ?normr_ge0 // ltW.
Qed.
End Run.
