(** * ErgodicTheory: chains on a finite set whose transition probabilities are bounded below. *)
From Coq Require Import Reals Lra.
From mathcomp Require Import all_ssreflect all_algebra.
From Verif Require Import RInst Prog ProgTheory Spec.

Set Implicit Arguments.
Unset Strict Implicit.
Unset Printing Implicit Defensive.
Import GRing.Theory Num.Theory Order.TTheory.
Local Open Scope ring_scope.

Section Doeblin.
Variables (Y : finType) (p : Y -> Y -> R) (e : R).
Hypotheses (p1 : forall y, \sum_z p y z = 1) (pe : forall y z, e <= p y z) (e0 : 0 < e).

Definition pstep (f : Y -> R) (y : Y) : R := \sum_z p y z * f z.
Definition rate : R := \sum_(z : Y) e.

Lemma rate_le1 (y : Y) : rate <= 1.
Proof. by rewrite -(p1 y); apply: ler_sum. Qed.

Lemma rate_gt0 (y : Y) : 0 < rate.
Proof. by rewrite /rate (bigD1 y) //=; apply: ltr_paddr => //; apply: sumr_ge0 => *; exact: ltW. Qed.

Lemma pstep_excess f lo y : \sum_z (p y z - e) * (f z - lo) = pstep f y - (\sum_z e * f z + (1 - rate) * lo).
Proof.
rewrite /pstep /rate -(p1 y) -sumrB mulr_suml -big_split /= -sumrB; apply: eq_bigr => z _.
Rring.
Qed.

Lemma contract f lo w : (forall z, lo <= f z <= lo + w) ->
  exists lo', forall y, lo' <= pstep f y <= lo' + (1 - rate) * w.
Proof.
move=> b; exists (\sum_z e * f z + (1 - rate) * lo) => y; apply/andP; split.
  rewrite -subr_ge0 -pstep_excess; apply: sumr_ge0 => z _; apply: mulr_ge0; first by rewrite subr_ge0.
  by rewrite subr_ge0; case/andP: (b z).
rewrite -ler_subl_addl -pstep_excess.
apply: le_trans (_ : \sum_z (p y z - e) * w <= _).
  apply: ler_sum => z _; apply: ler_wpmul2l; first by rewrite subr_ge0.
  by rewrite ler_subl_addl; case/andP: (b z).
by rewrite -mulr_suml sumrB p1.
Qed.

Lemma iter_band f lo w m : (forall z, lo <= f z <= lo + w) ->
  exists lo', forall y, lo' <= iter m pstep f y <= lo' + (1 - rate) ^+ m * w.
Proof.
move=> b; elim: m => [|m [lo' IH]]; first by exists lo => y /=; rewrite expr0 mul1r.
have [lo'' H] := contract IH; exists lo'' => y /=.
by rewrite exprS -mulrA.
Qed.

(** A law that one step changes by at most [d] times the size of the function. *)
Variables (pi : Y -> R) (d : R).
Hypotheses (pi0 : forall y, 0 <= pi y) (pi1 : \sum_y pi y = 1) (d0 : 0 <= d).
Definition mean (f : Y -> R) : R := \sum_y pi y * f y.
Hypothesis near : forall g c, (forall y, `|g y| <= c) -> `|mean (pstep g) - mean g| <= d * c.

Lemma mean_band f lo hi : (forall y, lo <= f y <= hi) -> lo <= mean f <= hi.
Proof.
move=> b; rewrite -[lo]mul1r -[hi]mul1r -pi1 !mulr_suml; apply/andP; split; apply: ler_sum => y _;
  by apply: ler_wpmul2l => //; case/andP: (b y).
Qed.

Lemma mean_iter f c m (y : Y) : (forall y, `|f y| <= c) ->
  `|mean (iter m pstep f) - mean f| <= d * c / rate.
Proof.
move=> fc; have c0 : 0 <= c by apply: le_trans (fc y).
have r0 := rate_gt0 y; have r1 := rate_le1 y.
have q0 : 0 <= 1 - rate by rewrite subr_ge0.
suff H : `|mean (iter m pstep f) - mean f| <= d * c * \sum_(k < m) (1 - rate) ^+ k.
  apply: le_trans H _; apply: ler_wpmul2l; first exact: mulr_ge0.
  rewrite -(ler_pmul2r r0) mulVf ?lt0r_neq0 //.
  have -> : (\sum_(k < m) (1 - rate) ^+ k) * rate = 1 - (1 - rate) ^+ m.
    elim: m => [|m IH]; first by rewrite big_ord0 mul0r expr0 subrr.
    by rewrite big_ord_recr /= mulrDl IH exprS; Rring.
  by rewrite ler_subl_addl ler_addr exprn_ge0.
elim: m => [|m IH]; first by rewrite big_ord0 mulr0 subrr normr0.
rewrite big_ord_recr /= mulrDr.
have -> : mean (pstep (iter m pstep f)) - mean f =
  (mean (iter m pstep f) - mean f) + (mean (pstep (iter m pstep f)) - mean (iter m pstep f)) by Rring.
apply: le_trans (ler_norm_add _ _) _; apply: ler_add => //.
have [|lo b] := @iter_band f (- c) (2%:R * c) m.
  by move=> z; have := fc z; rewrite ler_norml => /andP [h1 h2]; apply/andP; split=> //; apply: le_trans h2 _; toR; lra.
pose a := lo + (1 - rate) ^+ m * c; pose g z := iter m pstep f z - a.
have gb z : `|g z| <= (1 - rate) ^+ m * c.
  have sw (u v : R) : lo <= u <= lo + v * (2%:R * c) -> `|u - (lo + v * c)| <= v * c.
    rewrite ler_norml mulr2n => /andP [h1 h2]; apply/andP; split; Rlra.
  exact: sw (b z).
have := near gb.
have sg : pstep g =1 (fun z => pstep (iter m pstep f) z - a).
  move=> z; rewrite /pstep /g -[a in RHS]mul1r -(p1 z) mulr_suml -sumrB; apply: eq_bigr => k _.
  by rewrite mulrBr.
have mg : mean g = mean (iter m pstep f) - a.
  rewrite /mean /g -[a in RHS]mul1r -pi1 mulr_suml -sumrB; apply: eq_bigr => k _; by rewrite mulrBr.
have msg : mean (pstep g) = mean (pstep (iter m pstep f)) - a.
  rewrite /mean -[a in RHS]mul1r -pi1 mulr_suml -sumrB; apply: eq_bigr => k _; by rewrite sg mulrBr.
rewrite mg msg; have -> (u v : R) : u - a - (v - a) = u - v by Rring.
by rewrite -mulrA [c * _]mulrC.
Qed.

Theorem doeblin f c m y : (forall y, `|f y| <= c) ->
  `|iter m pstep f y - mean f| <= 2%:R * c * (1 - rate) ^+ m + d * c / rate.
Proof.
move=> fc.
have [|lo b] := @iter_band f (- c) (2%:R * c) m.
  by move=> z; have := fc z; rewrite ler_norml => /andP [h1 h2]; apply/andP; split=> //; apply: le_trans h2 _; toR; lra.
have -> : iter m pstep f y - mean f =
  (iter m pstep f y - mean (iter m pstep f)) + (mean (iter m pstep f) - mean f) by Rring.
apply: le_trans (ler_norm_add _ _) _; apply: ler_add; last exact: mean_iter.
have /andP [h1 h2] := b y; have /andP [h3 h4] := mean_band b.
have sw (u v q : R) : lo <= u -> u <= lo + q * (2%:R * c) -> lo <= v -> v <= lo + q * (2%:R * c) ->
    `|u - v| <= 2%:R * c * q.
  by rewrite ler_norml mulr2n => k1 k2 k3 k4; apply/andP; split; Rlra.
exact: sw h1 h2 h3 h4.
Qed.
End Doeblin.

(** ** Programs that may reach a result *)
Fixpoint possible (A : Type) (P : A -> Prop) (m : prog A) : Prop :=
  match m with
  | Ret a => P a
  | Draw k B p g => exists b, 0 < p b /\ possible P (g b)
  end.

Lemma possible_bind A C (m : prog A) (g : A -> prog C) P :
  possible (fun a => possible P (g a)) m -> possible P (bind m g).
Proof. by elim: m => [a|k B p f IH] //= [b [pb H]]; exists b; split=> //; exact: IH. Qed.

Lemma possible_imp A (P Q : A -> Prop) (m : prog A) : (forall a, P a -> Q a) -> possible P m -> possible Q m.
Proof. by move=> PQ; elim: m => [a|k B p f IH] /=; [exact: PQ | case=> b [pb H]; exists b; split=> //; exact: IH]. Qed.

Lemma possible_E A (m : prog A) f : proper m -> (forall a, 0 <= f a) -> possible (fun a => 0 < f a) m -> 0 < E m f.
Proof.
move=> + f0; elim: m => [a|k B p g IH] //= [p0 _ pg] [b [pb H]].
rewrite (bigD1 b) //=; apply: ltr_paddr.
  by apply: sumr_ge0 => c _; apply: mulr_ge0 => //; exact: E_ge0.
by apply: mulr_gt0 => //; exact: IH.
Qed.

Lemma E_possible A (m : prog A) f : proper m -> E m f != 0 -> possible (fun a => f a != 0) m.
Proof.
elim: m => [a|k B p g IH] //= [p0 _ pg] ne.
have [b nb|all0] := pickP (fun b => p b * E (g b) f != 0); last first.
  by case/negP: ne; apply/eqP; rewrite big1 // => b _; apply/eqP/negbFE/all0.
have pb : p b != 0 by apply: contraNneq nb => ->; rewrite mul0r.
have eb : E (g b) f != 0 by apply: contraNneq nb => ->; rewrite mulr0.
exists b; split; first by rewrite lt_def pb p0.
exact: IH.
Qed.

Lemma Pr_possible A (m : prog A) (P : A -> bool) : proper m -> 0 < Pr m P -> possible (fun a => P a) m.
Proof.
move=> pm h; have ne : E m (fun a => (P a)%:R) != 0 by exact: lt0r_neq0.
by apply: possible_imp (E_possible pm ne) => a; case: (P a); rewrite ?eqxx.
Qed.

Lemma possible_draw k (B : finType) (p : B -> R) (P : B -> Prop) b : 0 < p b -> P b -> possible P (draw k p).
Proof. by move=> pb Pb; exists b. Qed.
