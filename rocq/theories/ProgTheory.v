(** * ProgTheory: laws of the random-program readings. *)
From Coq Require Import Reals.
From mathcomp Require Import all_ssreflect all_algebra.
From Verif Require Import RInst Prog.

Set Implicit Arguments.
Unset Strict Implicit.
Unset Printing Implicit Defensive.
Import GRing.Theory Num.Theory Order.TTheory.
Local Open Scope ring_scope.

Lemma E_bind A C (m : prog A) (g : A -> prog C) f :
  E (bind m g) f = E m (fun a => E (g a) f).
Proof.
elim: m => [a|k B p h IH] //=.
by apply: eq_bigr => b _; rewrite IH.
Qed.

Lemma eq_E A (m : prog A) f g : f =1 g -> E m f = E m g.
Proof.
move=> fg; elim: m => [a|k B p h IH] //=.
by apply: eq_bigr => b _; rewrite IH.
Qed.

Lemma eq_Eg A (m : prog A) f g : f =1 g -> E m f = E m g.
Proof. exact: eq_E. Qed.
Arguments eq_Eg {A m f g} _.

Lemma always_bind A C (m : prog A) (g : A -> prog C) (P : C -> Prop) :
  always P (bind m g) <-> always (fun a => always P (g a)) m.
Proof.
elim: m => [a|k B p h IH] //=.
by split=> H b; apply/IH.
Qed.

Lemma always_imp A (P Q : A -> Prop) (m : prog A) :
  (forall a, P a -> Q a) -> always P m -> always Q m.
Proof. by move=> PQ; elim: m => [a /PQ|k B p h IH H b] //=; apply: IH. Qed.

Lemma always_true A (P : A -> Prop) (m : prog A) : (forall a, P a) -> always P m.
Proof. by move=> PQ; elim: m => [a|k B p h IH b] //=; apply: IH. Qed.

Lemma always_and A (P Q : A -> Prop) (m : prog A) :
  always P m -> always Q m -> always (fun a => P a /\ Q a) m.
Proof. by elim: m => [a|k B p h IH H1 H2 b] //=; apply: IH. Qed.

Lemma almost_bind A C (m : prog A) (g : A -> prog C) (P : C -> Prop) :
  almost P (bind m g) <-> almost (fun a => almost P (g a)) m.
Proof.
elim: m => [a|k B p h IH] //=.
by split=> H b pb; apply/IH => //; apply: H.
Qed.

Lemma almost_imp A (P Q : A -> Prop) (m : prog A) :
  (forall a, P a -> Q a) -> almost P m -> almost Q m.
Proof. by move=> PQ; elim: m => [a /PQ|k B p h IH H b pb] //=; apply/IH/H. Qed.

Lemma almost_and A (P Q : A -> Prop) (m : prog A) :
  almost P m -> almost Q m -> almost (fun a => P a /\ Q a) m.
Proof. by elim: m => [a|k B p h IH H1 H2 b pb] //=; apply: IH; [apply: H1|apply: H2]. Qed.

Lemma always_almost A (P : A -> Prop) (m : prog A) : always P m -> almost P m.
Proof. by elim: m => [a|k B p h IH H b pb] //=; apply: IH. Qed.

Lemma eq_E_almost A (m : prog A) f g :
  almost (fun a => f a = g a) m -> E m f = E m g.
Proof.
elim: m => [a|k B p h IH] //= H; apply: eq_bigr => b _.
have [->|pb] := eqVneq (p b) 0; first by rewrite !mul0r.
by rewrite IH //; apply: H.
Qed.

Lemma eq_E_always A (m : prog A) f g :
  always (fun a => f a = g a) m -> E m f = E m g.
Proof. by move/always_almost/eq_E_almost. Qed.

Lemma E_scale A (m : prog A) c f : E m (fun a => c * f a) = c * E m f.
Proof.
elim: m => [a|k B p h IH] //=; rewrite mulr_sumr; apply: eq_bigr => b _.
by rewrite IH /= !mulrA [p b * c]mulrC.
Qed.

Lemma E_scaler A (m : prog A) c f : E m (fun a => f a * c) = E m f * c.
Proof. by rewrite mulrC -E_scale; apply: eq_E => a; rewrite mulrC. Qed.

Lemma E_add A (m : prog A) f g : E m (fun a => f a + g a) = E m f + E m g.
Proof.
elim: m => [a|k B p h IH] //=; rewrite -big_split; apply: eq_bigr => b _.
by rewrite IH mulrDr.
Qed.

Lemma E_opp A (m : prog A) f : E m (fun a => - f a) = - E m f.
Proof. by rewrite -mulN1r -E_scale; apply: eq_E => a; rewrite mulN1r. Qed.

Lemma E_sub A (m : prog A) f g : E m (fun a => f a - g a) = E m f - E m g.
Proof. by rewrite E_add E_opp. Qed.

Lemma E0 A (m : prog A) : E m (fun _ => 0) = 0.
Proof. by elim: m => [a|k B p h IH] //=; rewrite big1 // => b _; rewrite IH mulr0. Qed.

Lemma E_sum A (m : prog A) (I : Type) (r : seq I) (P : pred I) (f : I -> A -> R) :
  E m (fun a => \sum_(i <- r | P i) f i a) = \sum_(i <- r | P i) E m (f i).
Proof.
elim: m => [a|k B p h IH] //=.
rewrite exchange_big /=; apply: eq_bigr => b _.
by rewrite IH mulr_sumr.
Qed.

Lemma E_const A (m : prog A) c : proper m -> E m (fun _ => c) = c.
Proof.
elim: m => [a|k B p h IH] //= [p0 p1 pr].
under eq_bigr do rewrite IH //.
by rewrite -mulr_suml /= p1 mul1r.
Qed.

Lemma E_ge0 A (m : prog A) f : proper m -> (forall a, 0 <= f a) -> 0 <= E m f.
Proof.
move=> + f0; elim: m => [a|k B p h IH] //= [p0 p1 pr].
by apply: sumr_ge0 => b _; apply: mulr_ge0 => //; apply: IH.
Qed.

Lemma E_le A (m : prog A) f g :
  proper m -> (forall a, f a <= g a) -> E m f <= E m g.
Proof.
move=> pm fg; rewrite -subr_ge0 -E_sub; apply: E_ge0 => // a.
by rewrite subr_ge0.
Qed.

Lemma proper_bind A C (m : prog A) (g : A -> prog C) :
  proper m -> (forall a, proper (g a)) -> proper (bind m g).
Proof. by move=> + pg; elim: m => [a|k B p h IH] //= [p0 p1 pr]; split=> // b; apply: IH. Qed.

(** Independent draws commute under the expectation. *)
Lemma E_comm A C (m1 : prog A) (m2 : prog C) (f : A -> C -> R) :
  E m1 (fun a => E m2 (f a)) = E m2 (fun c => E m1 (fun a => f a c)).
Proof.
elim: m1 => [a|k B p h IH] //=; rewrite E_sum; apply: eq_bigr => b _.
by rewrite IH E_scale.
Qed.

Lemma E_sumE (I : finType) (p : I -> R) (A : Type) (m : prog A) (f : I -> A -> R) :
  \sum_i p i * E m (f i) = E m (fun a => \sum_i p i * f i a).
Proof. by rewrite E_sum; apply: eq_bigr => i _; rewrite E_scale. Qed.

(** Mass function of a program with results in a finite type. *)
Lemma E_mass (A : finType) (m : prog A) f :
  E m f = \sum_a E m (fun a' => (a' == a)%:R) * f a.
Proof.
transitivity (E m (fun a' => \sum_a (a' == a)%:R * f a)).
  apply: eq_E => a'; rewrite (bigD1 a') //= eqxx mul1r big1 ?addr0 // => a.
  by rewrite eq_sym => /negbTE ->; rewrite mul0r.
by rewrite E_sum; apply: eq_bigr => a _; rewrite -E_scaler.
Qed.

Lemma E_draw k (B : finType) (p : B -> R) f : E (draw k p) f = \sum_b p b * f b.
Proof. by []. Qed.

Lemma bindA A C D (m : prog A) (g : A -> prog C) (h : C -> prog D) f :
  E (bind (bind m g) h) f = E (bind m (fun a => bind (g a) h)) f.
Proof. by rewrite !E_bind; apply: eq_E => a; rewrite E_bind. Qed.

(** ** Scans *)

Fixpoint rscan (C I O : Type) (body : C -> I -> prog (C * O)) (c : C) (rins : seq I)
  : prog (C * seq O) :=
  match rins with
  | [::] => Ret (c, [::])
  | i :: rins' =>
      do (c', ros) <- rscan body c rins';
      do (c'', o) <- body c' i;
      Ret (c'', o :: ros)
  end.

Lemma E_scan_cat C I O (body : C -> I -> prog (C * O)) c ins1 ins2 f :
  E (scan body c (ins1 ++ ins2)) f
  = E (scan body c ins1) (fun co => E (scan body co.1 ins2) (fun co' => f (co'.1, co.2 ++ co'.2))).
Proof.
elim: ins1 c f => [|i ins1 IH] c f /=.
  by apply: eq_E => -[c' os].
rewrite !E_bind; apply: eq_E => -[c' o].
rewrite !E_bind IH; apply: eq_E => -[c'' os] /=.
by apply: eq_E => -[c''' os'].
Qed.

Lemma E_scan_rscan C I O (body : C -> I -> prog (C * O)) c ins f :
  E (scan body c ins) f = E (rscan body c (rev ins)) (fun co => f (co.1, rev co.2)).
Proof.
elim/last_ind: ins c f => [|ins i IH] c f //=.
rewrite -cats1 E_scan_cat rev_cat /= E_bind IH.
apply: eq_E => -[c' os] /=.
rewrite !E_bind; apply: eq_E => -[c'' o] /=.
by rewrite rev_cons cats1.
Qed.

(** ** Keys *)

Definition below (r k : key) : bool := prefix r k.
Definition indep (k1 k2 : key) : bool := ~~ prefix k1 k2 && ~~ prefix k2 k1.
Definition antichain (ks : seq key) : bool := pairwise indep ks.

(** [uses rs m]: every execution of [m] consumes keys that all descend from one
    of the roots [rs]; no key is consumed twice and none is an ancestor of
    another consumed key. *)
Definition uses (rs : seq key) A (m : prog A) : Prop :=
  forall ks a, runs m ks a ->
    antichain ks && all (fun k => has (fun r => below r k) rs) ks.

Lemma runs_bind A C (m : prog A) (g : A -> prog C) ks c :
  runs (bind m g) ks c <->
  exists ks1 ks2 a, [/\ ks = ks1 ++ ks2, runs m ks1 a & runs (g a) ks2 c].
Proof.
elim: m ks => [a|k B p h IH] ks /=.
  split=> [H|[ks1 [ks2 [a' [-> [-> ->]]]]]] //.
  by exists [::], ks, a.
split=> [[b [ks' [-> /IH [ks1 [ks2 [a [-> H1 H2]]]]]]]|].
  by exists (k :: ks1), ks2, a; split=> //; exists b, ks1.
move=> [ks1 [ks2 [a [-> [b [ks' [-> H1]]] H2]]]].
by exists b, (ks' ++ ks2); split=> //; apply/IH; exists ks', ks2, a.
Qed.

Lemma uses_ret rs A (a : A) : uses rs (Ret a).
Proof. by move=> ks a' [-> _]. Qed.

Lemma uses_draw (k : key) (B : finType) (p : B -> R) : uses [:: k] (draw k p).
Proof. by move=> ks a /= [b [ks' [-> [-> _]]]] /=; rewrite /below prefix_refl. Qed.

Lemma uses_sub rs rs' A (m : prog A) :
  (forall r, r \in rs -> has (fun r' => below r' r) rs') -> uses rs m -> uses rs' m.
Proof.
move=> H U ks a /U /andP [-> /allP Hk] /=; apply/allP => k /Hk /hasP [r /H].
move=> /hasP [r' r'in b1] b2; apply/hasP; exists r' => //.
exact: prefix_trans b1 b2.
Qed.

Lemma indepC : symmetric indep.
Proof. by move=> a b; rewrite /indep andbC. Qed.

Lemma prefix_comparable (a b k : key) : prefix a k -> prefix b k -> prefix a b || prefix b a.
Proof.
rewrite !prefixE => /eqP ea /eqP eb.
have [le|/ltnW le] := leqP (size a) (size b); apply/orP; [left|right].
  by rewrite -{1}eb take_take // ea.
by rewrite -{1}ea take_take // eb.
Qed.

Lemma indep_below r1 r2 k1 k2 : indep r1 r2 -> below r1 k1 -> below r2 k2 -> indep k1 k2.
Proof.
move=> /andP [n12 n21] b1 b2; apply/andP; split; apply/negP => p12.
  have := prefix_comparable (prefix_trans b1 p12) b2.
  by rewrite (negbTE n12) (negbTE n21).
have := prefix_comparable b1 (prefix_trans b2 p12).
by rewrite (negbTE n12) (negbTE n21).
Qed.

Lemma uses_bind rs1 rs2 A C (m : prog A) (g : A -> prog C) :
  allrel indep rs1 rs2 ->
  uses rs1 m -> (forall a, uses rs2 (g a)) -> uses (rs1 ++ rs2) (bind m g).
Proof.
move=> ar U1 U2 ks c /runs_bind [ks1 [ks2 [a [-> /U1 /andP [p1 a1] /U2 /andP [p2 a2]]]]].
rewrite /antichain pairwise_cat -!/(antichain _) p1 p2 !andbT all_cat.
apply/and3P; split.
- apply/allrelP => k1 k2 k1in k2in.
  move/allP/(_ _ k1in)/hasP: a1 => [r1 r1in b1].
  move/allP/(_ _ k2in)/hasP: a2 => [r2 r2in b2].
  by apply: indep_below b1 b2; move/allrelP: ar; apply.
- apply/allP => k /(allP a1) /hasP [r rin b]; apply/hasP; exists r => //.
  by rewrite mem_cat rin.
- apply/allP => k /(allP a2) /hasP [r rin b]; apply/hasP; exists r => //.
  by rewrite mem_cat rin orbT.
Qed.

Lemma below_split k i : below k (split k i).
Proof. by rewrite /below /split -cats1 prefix_prefix. Qed.

Lemma indep_split k i j : i != j -> indep (split k i) (split k j).
Proof.
move=> ij; rewrite /indep /split.
have H a b : a != b -> ~~ prefix (rcons k a) (rcons k b).
  move=> ab; apply/negP; rewrite prefixE size_rcons => /eqP.
  rewrite -[(size k).+1](size_rcons k b) take_size => /eqP.
  by rewrite eqseq_rcons eq_sym (negbTE ab) andbF.
by rewrite !H // eq_sym.
Qed.
