(** * ErgodicContracts: how the resampling schemes and the index moves of the code behave when the indices are
    rotated, and which indices they may select. *)
From Coq Require Import Reals FunctionalExtensionality.
From mathcomp Require Import all_ssreflect all_algebra.
From Verif Require Import RInst Prog ProgTheory Resampling Spec ResamplingProofs KillingProofs MoveProofs.
From Verif Require Import Csmc SmcTheory ErgodicSpec ErgodicTheory ShiftTheory.

Set Implicit Arguments.
Unset Strict Implicit.
Unset Printing Implicit Defensive.
Import GRing.Theory Num.Theory Order.TTheory.
Local Open Scope ring_scope.

Lemma sum_pos (I : finType) (F : I -> R) i : (forall j, 0 <= F j) -> 0 < F i -> 0 < \sum_j F j.
Proof.
move=> F0 Fi; rewrite (bigD1 i) //=; apply: ltr_paddr => //.
by apply: sumr_ge0 => j _; exact: F0.
Qed.

Section Contracts.
Variable n' : nat.
Local Notation n := n'.+1.
Implicit Types (a i j k l : 'I_n) (w : 'I_n -> R).

Lemma moved_ancK a a' : cancel (moved_anc a a') (moved_anc (- a) (- a')).
Proof. by move=> A; apply/ffunP => l; rewrite !ffunE opprK !addrK. Qed.

Lemma sum_moved_anc a a' (F : {ffun 'I_n -> 'I_n} -> R) : \sum_A F A = \sum_A F (moved_anc a a' A).
Proof.
rewrite (reindex (moved_anc a a')) //; exists (moved_anc (- a) (- a')) => A _; first exact: moved_ancK.
by rewrite -{1}(opprK a) -{1}(opprK a') moved_ancK.
Qed.

Lemma prod_moved a (F : 'I_n -> R) : \prod_i F i = \prod_i F (i + a).
Proof. by rewrite (reindex (fun i => i + a)) //; exists (fun i => i - a) => i _; rewrite (addrK, subrK). Qed.

Lemma upd_moved a a' (A : {ffun 'I_n -> 'I_n}) i j :
  upd (moved_anc a a' A) (j + a') (i + a) = moved_anc a a' (upd A j i).
Proof.
apply/ffunP => l; rewrite !ffunE -[in RHS](inj_eq (addIr a')) subrK; by case: ifP.
Qed.

(** ** multinomial *)
Lemma E_multinomial key w i j f : prob_vec w ->
  E (multinomial key w i j true) f = \sum_(A : {ffun 'I_n -> 'I_n}) (\prod_l w (A l)) * f (upd A j i).
Proof. by move=> pw; rewrite /multinomial E_bind (eq_Eg (g := fun A => f (upd A j i))) // E_choices. Qed.

Lemma multinomial_rotates : rotates_anc (fun key w i j => @multinomial n key w i j true).
Proof.
move=> key key' w a a' i j f pw; rewrite !E_multinomial //; last exact: moved_prob.
rewrite (sum_moved_anc a a'); apply: eq_bigr => A _; rewrite upd_moved; congr (_ * _).
by rewrite (prod_moved a'); apply: eq_bigr => l _; rewrite /moved_w ffunE !addrK.
Qed.

Lemma other_exists i m : m != i -> forall j, exists l, l != j.
Proof. by move=> mi j; exists (j + (m - i)); rewrite -subr_eq0 addrC addKr subr_eq0. Qed.

Lemma multinomial_spreads : spreads (fun key w i j => @multinomial n key w i j true).
Proof.
move=> key w i j m pw w0 mi; have [l lj] := other_exists mi j; exists l => //.
rewrite /Pr E_multinomial //; apply: (@sum_pos _ _ [ffun _ => m]) => [A|].
  by apply: mulr_ge0; rewrite ?ler0n //; apply: prodr_ge0 => l' _; exact: ltW.
rewrite !ffunE (negbTE lj) eqxx mulr1; apply: prodr_gt0 => l' _; exact: w0.
Qed.

(** ** killing *)
Lemma E_killing_upd key w i j f : prob_vec w ->
  E (killing key w i j true) f = \sum_J killing_J_prob w i J *
     \sum_(A : {ffun 'I_n -> 'I_n}) killing_law w A * f (upd (roll A (j - J)) j i).
Proof.
move=> pw; rewrite /killing E_bind killing_idx_law //=.
rewrite (eq_bigr (fun A : {ffun 'I_n -> 'I_n} => \sum_J killing_J_prob w i J *
     (killing_law w A * f (upd (roll A (j - J)) j i)))); last first.
  move=> A _; rewrite mulr_sumr /=; apply: eq_bigr => J _.
  by rewrite cat_law_prob; [rewrite mulrCA | exact: J_prob_prob].
by rewrite exchange_big; apply: eq_bigr => J _; rewrite mulr_sumr.
Qed.

Lemma amax_moved a w : amax (moved_w a w) = amax w.
Proof.
apply/eqP; rewrite eq_le; apply/andP; split; apply: amax_le => i; first by rewrite /moved_w le_amax.
by have := le_amax (moved_w a w) (i + a); rewrite /moved_w addrK.
Qed.

Lemma surv_moved a w l : surv (moved_w a w) (l + a) = surv w l.
Proof. by rewrite /surv amax_moved /moved_w addrK. Qed.

Lemma J_prob_moved a w i J : prob_vec w -> killing_J_prob (moved_w a w) (i + a) (J + a) = killing_J_prob w i J.
Proof.
move=> pw; have pw' := moved_prob a pw; have [->|Ji] := eqVneq J i.
  by rewrite !J_prob_i // amax_moved surv_moved.
by rewrite !J_prob_other ?(inj_eq (addIr a)) // surv_moved.
Qed.

Lemma killing_law_moved a w A : killing_law (moved_w a w) (moved_anc a a A) = killing_law w A.
Proof.
rewrite /killing_law (prod_moved a); apply: eq_bigr => l _.
by rewrite /kill1 surv_moved ffunE addrK (inj_eq (addIr a)) /moved_w addrK.
Qed.

Lemma roll_moved a a' (A : {ffun 'I_n -> 'I_n}) i j :
  roll (moved_anc a a A) (j + a' - (i + a)) = moved_anc a a' (roll A (j - i)).
Proof.
apply/ffunP => l; rewrite !ffunE; congr (A _ + a).
rewrite opprB opprD addrACA opprB -!addrA; congr (l + _).
by rewrite !addrA [_ + a - a']addrAC addrK -[RHS]addrA [RHS]addrC.
Qed.

Lemma killing_rotates : rotates_anc (fun key w i j => @killing n' key w i j true).
Proof.
move=> key key' w a a' i j f pw; rewrite !E_killing_upd //; last exact: moved_prob.
rewrite (sum_moved a); apply: eq_bigr => J _; rewrite J_prob_moved //; congr (_ * _).
rewrite (sum_moved_anc a a); apply: eq_bigr => A _.
by rewrite killing_law_moved roll_moved upd_moved.
Qed.

Lemma J_prob_i_gt0 w i : prob_vec w -> 0 < killing_J_prob w i i.
Proof.
move=> pw; rewrite J_prob_i // divr_gt0 ?ltr0n //.
by apply: ltr_paddr; rewrite ?invr_gt0 ?amax_gt0 // subr_ge0; have /andP [] := surv_01 pw i.
Qed.

Lemma killing_spreads : spreads (fun key w i j => @killing n' key w i j true).
Proof.
move=> key w i j m pw w0 mi; exists (m + (j - i)).
  by rewrite addrCA -subr_eq0 addrC addKr subr_eq0.
have J0 := proj1 (J_prob_prob pw i).
have l0 A : 0 <= killing_law w A by apply: prodr_ge0 => l _; exact: kill1_ge0.
rewrite /Pr E_killing_upd //; apply: (@sum_pos _ _ i) => [J|].
  by apply: mulr_ge0 => //; apply: sumr_ge0 => A _; rewrite mulr_ge0 ?ler0n.
rewrite mulr_gt0 ?J_prob_i_gt0 //; apply: (@sum_pos _ _ [ffun l => l]) => [A|].
  by rewrite mulr_ge0 ?ler0n.
have ne : m + (j - i) != j by rewrite addrCA -subr_eq0 addrC addKr subr_eq0.
rewrite !ffunE (negbTE ne) addrK eqxx mulr1; apply: prodr_gt0 => l _.
rewrite /kill1 ffunE eqxx mulr1; apply: ltr_paddr; last by rewrite /surv divr_gt0 ?amax_gt0.
by rewrite mulr_ge0 ?(ltW (w0 _)) // subr_ge0; have /andP [] := surv_01 pw l.
Qed.

(** ** Barker *)
Lemma barker_rotates : rotates_move (index_of (@barker_move n)).
Proof.
move=> key key' w a k f pw; rewrite !E_barker //; last exact: moved_prob.
by rewrite (sum_moved a); apply: eq_bigr => i _; rewrite /moved_w addrK.
Qed.

Lemma barker_leaves : leaves_index (index_of (@barker_move n)).
Proof. by move=> key w k l pw w0 lk; rewrite barker_law. Qed.

(** ** The forced move *)
Lemma force_rest_moved a w k i : force_rest (moved_w a w) (k + a) (i + a) = force_rest w k i.
Proof.
have e l : moved_w a w (l + a) = w l by rewrite /moved_w addrK.
by rewrite /force_rest !e; case: ifP => // _; rewrite /updR (inj_eq (addIr a)) e.
Qed.

Lemma fm_moved a w k i : fm (moved_w a w) (k + a) (i + a) = fm w k i.
Proof. by rewrite /fm force_rest_moved /moved_w !addrK. Qed.

Lemma force_rotates : rotates_move (index_of (@force_move n)).
Proof.
move=> key key' w a k f pw; rewrite !E_force //; last exact: moved_prob.
congr (_ + _); rewrite [LHS]big_mkcond [RHS]big_mkcond /= (sum_moved a); apply: eq_bigr => i _.
by rewrite (inj_eq (addIr a)) fm_moved.
Qed.

Lemma force_leaves : leaves_index (index_of (@force_move n)).
Proof.
move=> key w k l pw w0 lk; rewrite force_law //; last by rewrite eq_sym.
have kl : k != l by rewrite eq_sym.
have lt1 u v : u != v -> w u < 1.
  move=> uv; have := w_pair pw uv; apply: lt_le_trans; rewrite ltr_addl; exact: w0.
rewrite /fm mulr_gt0 //.
  rewrite /force_rest; case: ifP => _; last by rewrite divr_gt0 ?ltr01 ?ltr0n.
  by rewrite /updR (negbTE lk) divr_gt0 ?subr_gt0 // (lt1 k l).
have b0 : 0 < 1 - w l by rewrite subr_gt0 (lt1 l k).
have a0 : 0 < 1 - w k by rewrite subr_gt0 (lt1 k l).
rewrite /prob_lt b0 /clip lt_minr ltr01 andbT lt_maxr divr_gt0 //.
Qed.

End Contracts.
