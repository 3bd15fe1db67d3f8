(** * ResamplingProofs: laws of normalisation, resampling schemes and moves. *)
From Coq Require Import Reals Lra.
From mathcomp Require Import all_ssreflect all_algebra.
From Verif Require Import RInst Prog ProgTheory Resampling Spec.

Set Implicit Arguments.
Unset Strict Implicit.
Unset Printing Implicit Defensive.
Import GRing.Theory Num.Theory Order.TTheory.
Local Open Scope ring_scope.

(** ** exp and ln in mathcomp notation *)
Lemma expR_gt0 (x : R) : 0 < exp x.
Proof. by apply/RltE; exact: exp_pos. Qed.
Lemma expR_ge0 (x : R) : 0 <= exp x.
Proof. exact/ltW/expR_gt0. Qed.
Lemma expR_neq0 (x : R) : exp x != 0.
Proof. by rewrite gt_eqF ?expR_gt0. Qed.
Lemma expRD (x y : R) : exp (x + y) = exp x * exp y.
Proof. exact: exp_plus. Qed.
Lemma expRN (x : R) : exp (- x) = (exp x)^-1.
Proof. exact: exp_Ropp. Qed.
Lemma expRB (x y : R) : exp (x - y) = exp x / exp y.
Proof. by rewrite expRD expRN. Qed.
Lemma expR0 : exp 0 = 1.
Proof. exact: exp_0. Qed.
Lemma exp_lnR (x : R) : 0 < x -> exp (ln x) = x.
Proof. by move/RltE; exact: exp_ln. Qed.
Lemma ln_expR (x : R) : ln (exp x) = x.
Proof. exact: ln_exp. Qed.

(** ** normalize *)
Section Normalize.
Variable n' : nat.
Local Notation n := n'.+1.
Implicit Type lw : 'I_n -> R.

Lemma sum_exp_gt0 lw : 0 < \sum_i exp (lw i).
Proof.
rewrite (bigD1 ord0) //=; apply: ltr_paddr; last exact: expR_gt0.
by apply: sumr_ge0 => i _; exact: expR_ge0.
Qed.

Lemma normalizeE lw i : normalize lw i = exp (lw i) / \sum_j exp (lw j).
Proof. by rewrite /normalize /normalize_log /logsumexp expRB exp_lnR ?sum_exp_gt0. Qed.

Lemma normalize_gt0 lw i : 0 < normalize lw i.
Proof. exact: expR_gt0. Qed.

Lemma normalize_sum lw : \sum_i normalize lw i = 1.
Proof.
under eq_bigr do rewrite normalizeE.
by rewrite -mulr_suml /= divff // gt_eqF ?sum_exp_gt0.
Qed.

Lemma normalize_prob lw : prob_vec (normalize lw).
Proof. by split=> [i|]; [apply/ltW/normalize_gt0 | exact: normalize_sum]. Qed.

Lemma normalize_ratio lw i j : normalize lw i / normalize lw j = exp (lw i) / exp (lw j).
Proof.
rewrite !normalizeE invf_div mulrA -[_ * _^-1 * _]mulrA mulVf ?mulr1 //.
by rewrite gt_eqF ?sum_exp_gt0.
Qed.

Lemma normalize_shift lw c : normalize (fun i => lw i + c) =1 normalize lw.
Proof.
move=> i; rewrite !normalizeE expRD.
under eq_bigr do rewrite expRD.
rewrite -mulr_suml /= invfM mulrACA divff ?mulr1 //; exact: expR_neq0.
Qed.

Lemma eq_normalize lw lw' : lw =1 lw' -> normalize lw =1 normalize lw'.
Proof. by move=> e i; rewrite !normalizeE e; congr (_ / _); apply: eq_bigr => j _; rewrite e. Qed.

Lemma normalize_normalize lw : normalize (normalize_log lw) =1 normalize lw.
Proof. by move=> i; rewrite -(normalize_shift lw (- logsumexp lw)). Qed.

End Normalize.

(** ** cat_law and choices *)
Lemma cat_law_prob n (w : 'I_n -> R) : prob_vec w -> cat_law w =1 w.
Proof. by move=> [_ s1] i; rewrite /cat_law s1 divr1. Qed.

Lemma eq_cat_law n (w w' : 'I_n -> R) : w =1 w' -> cat_law w =1 cat_law w'.
Proof. by move=> e i; rewrite /cat_law e (eq_bigr w'). Qed.

Lemma E_choice n (w : 'I_n -> R) k f : prob_vec w -> E (choice k w) f = \sum_i w i * f i.
Proof. by move=> pw /=; apply: eq_bigr => i _; rewrite cat_law_prob. Qed.

Lemma E_choices n (w : 'I_n -> R) k f :
  prob_vec w -> E (choices k w) f = \sum_(A : {ffun 'I_n -> 'I_n}) (\prod_i w (A i)) * f A.
Proof.
move=> pw /=; apply: eq_bigr => A _; congr (_ * _).
by apply: eq_bigr => i _; rewrite cat_law_prob.
Qed.

Lemma sum_prod_ffun (I J : finType) (p : I -> J -> R) :
  \sum_(A : {ffun I -> J}) \prod_i p i (A i) = \prod_i \sum_j p i j.
Proof. by rewrite bigA_distr_bigA. Qed.

Lemma sum_prod1 (I J : finType) (p : I -> J -> R) :
  (forall i, \sum_j p i j = 1) -> \sum_(A : {ffun I -> J}) \prod_i p i (A i) = 1.
Proof. by move=> H; rewrite sum_prod_ffun big1. Qed.

(** Replacing coordinate [j] of a product law. *)
Section Upd.
Variables (n : nat) (Y : finType).
Implicit Types (A : {ffun 'I_n -> Y}) (j : 'I_n).

Lemma upd_at A j v : upd A j v j = v.
Proof. by rewrite ffunE eqxx. Qed.
Lemma upd_other A j v i : i != j -> upd A j v i = A i.
Proof. by rewrite ffunE => /negbTE ->. Qed.
Lemma upd_id A j : upd A j (A j) = A.
Proof. by apply/ffunP => i; rewrite ffunE; case: eqP => // ->. Qed.
Lemma upd_upd A j v v' : upd (upd A j v) j v' = upd A j v'.
Proof. by apply/ffunP => i; rewrite !ffunE; case: eqP. Qed.

Lemma sum_upd (p : 'I_n -> Y -> R) j v (F : {ffun 'I_n -> Y} -> R) :
  \sum_y p j y = 1 ->
  \sum_(A : {ffun 'I_n -> Y}) (\prod_i p i (A i)) * F (upd A j v)
  = \sum_(A : {ffun 'I_n -> Y} | A j == v) (\prod_(i | i != j) p i (A i)) * F A.
Proof.
move=> p1.
rewrite (partition_big (fun A : {ffun 'I_n -> Y} => upd A j v) (fun A : {ffun 'I_n -> Y} => A j == v)) /=; last first.
  by move=> A _; rewrite upd_at.
apply: eq_bigr => B /eqP Bj.
rewrite (reindex_onto (fun y : Y => upd B j y) (fun A : {ffun 'I_n -> Y} => A j)) /=; last first.
  move=> A /eqP <-; by rewrite upd_upd upd_id.
under eq_bigl => y do rewrite upd_at eqxx upd_upd andbT.
rewrite (eq_bigl xpredT); last by move=> y; rewrite -Bj upd_id eqxx.
transitivity (\sum_y (p j y) * ((\prod_(i | i != j) p i (B i)) * F B)); last first.
  by rewrite -mulr_suml /= p1 mul1r.
apply: eq_bigr => y _; rewrite (bigD1 j) //= upd_at upd_upd -Bj upd_id.
rewrite -mulrA; congr (_ * (_ * _)).
by apply: eq_bigr => i ij; rewrite upd_other.
Qed.

End Upd.

Lemma sum_upd_all n (Y : finType) (p : 'I_n -> Y -> R) (j : 'I_n) (a : Y -> R)
    (F : {ffun 'I_n -> Y} -> R) :
  \sum_y p j y = 1 ->
  \sum_v a v * (\sum_(A : {ffun 'I_n -> Y}) (\prod_i p i (A i)) * F (upd A j v))
  = \sum_(A : {ffun 'I_n -> Y}) a (A j) * (\prod_(i | i != j) p i (A i)) * F A.
Proof.
move=> p1; under eq_bigr do rewrite sum_upd //.
rewrite [RHS](partition_big (fun A : {ffun 'I_n -> Y} => A j) xpredT) //=.
apply: eq_bigr => v _; rewrite mulr_sumr /=; apply: eq_bigr => A /eqP <-.
by rewrite mulrA.
Qed.

(** ** multinomial *)
Definition multinomial_law n (w : 'I_n -> R) (A : {ffun 'I_n -> 'I_n}) : R := \prod_i w (A i).

Lemma multinomial_uncond n k (w : 'I_n -> R) i j f :
  prob_vec w ->
  E (multinomial k w i j false) f = \sum_(A : {ffun 'I_n -> 'I_n}) multinomial_law w A * f A.
Proof. by move=> pw; rewrite /multinomial E_bind; rewrite (eq_Eg (g := f)) // E_choices. Qed.

Lemma multinomial_compat n k (w : 'I_n -> R) :
  prob_vec w ->
  conditional_of w (multinomial_law w) (fun i j => multinomial k w i j true).
Proof.
move=> pw i j f; rewrite /multinomial E_bind.
rewrite (eq_Eg (g := fun A => f (upd A j i))) // E_choices //.
rewrite (@sum_upd _ _ (fun _ => w) j i f) ?(proj2 pw) //.
rewrite mulr_sumr /=; apply: eq_bigr => A /eqP Aj.
by rewrite mulrA /multinomial_law [in RHS](bigD1 j) //= Aj.
Qed.

Lemma multinomial_keep n k (w : 'I_n -> R) i j :
  always (fun A : {ffun 'I_n -> 'I_n} => A j = i) (multinomial k w i j true).
Proof. by move=> A /=; rewrite upd_at. Qed.
