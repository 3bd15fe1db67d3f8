(** * MoveWitness: inputs on which [force_move] does not meet its documentation. *)
From Coq Require Import Reals Lra.
From mathcomp Require Import all_ssreflect all_algebra.
From Verif Require Import RInst Prog ProgTheory Resampling Spec ResamplingProofs KillingProofs MoveProofs.

Set Implicit Arguments.
Unset Strict Implicit.
Unset Printing Implicit Defensive.
Import GRing.Theory Num.Theory Order.TTheory.
Local Open Scope ring_scope.

(** Weights (0.3, 0.6, 0.1). *)
Definition w369 (i : 'I_3) : R :=
  nth 0 [:: IZR 3 / IZR 10; IZR 6 / IZR 10; IZR 1 / IZR 10] i.

Lemma w369_prob : prob_vec w369.
Proof.
split=> [[[|[|[|//]]] ?]|]; rewrite /w369 /=; try by toR; lra.
by rewrite !big_ord_recl big_ord0 /w369 /=; toR; lra.
Qed.

Lemma w369_lt (i : 'I_3) : w369 i <= IZR 6 / IZR 10.
Proof. by case: i => [[|[|[|//]]] ?]; rewrite /w369 /=; toR; lra. Qed.

Lemma w369_lt1 (i : 'I_3) : w369 i < 1.
Proof. by apply: le_lt_trans (w369_lt i) _; toR; lra. Qed.

Lemma thr_gt (n : nat) (x : R) : x <= IZR 9 / IZR 10 -> x < force_threshold n.
Proof.
move=> h; apply: lt_le_trans (force_threshold_ge n); apply: le_lt_trans h _.
by toR; lra.
Qed.

Lemma w369_thr (i : 'I_3) : w369 i < force_threshold 3.
Proof. by apply: thr_gt; apply: le_trans (w369_lt i) _; toR; lra. Qed.

Lemma w369_alpha : force_alpha w369 ord0 = 1.
Proof.
rewrite /force_alpha; case: ifP => // _.
rewrite /clip min_r // le_maxr; apply/orP; left.
rewrite (eq_bigl xpredT); last first.
  by move=> i; rewrite gt_eqF // subr_gt0 w369_lt1.
rewrite !big_ord_recl big_ord0 /force_rest w369_thr /updR /=.
rewrite /w369 /=.
toR.
have -> : ((1 - 3 / 10) * (0 / (1 - 3 / 10)) / (1 - 3 / 10) +
   ((1 - 3 / 10) * (6 / 10 / (1 - 3 / 10)) / (1 - 6 / 10) +
    ((1 - 3 / 10) * (1 / 10 / (1 - 3 / 10)) / (1 - 1 / 10) + 0)) = 29 / 18)%coqR by field.
by lra.
Qed.

Lemma w369_leave key :
  Pr (index_of (@force_move 3) key w369 ord0) (fun i => i != ord0) < 1.
Proof.
rewrite force_leave; last exact: w369_prob.
rewrite big_mkcond /= !big_ord_recl big_ord0 /= /fm /force_rest w369_thr /updR /=.
rewrite prob_lt_big; first last.
- by rewrite /w369 /=; toR; lra.
- by rewrite /w369 /=; toR; lra.
- by rewrite /w369 /=; toR; lra.
rewrite prob_lt_small; first last.
- by rewrite /w369 /=; toR; lra.
- by apply/andP; split; rewrite /w369 /=; toR; lra.
rewrite /w369 /=; toR.
have -> : (0 + (6 / 10 / (1 - 3 / 10) * 1 +
   (1 / 10 / (1 - 3 / 10) * ((1 - 3 / 10) / (1 - 1 / 10)) + 0)) = 61 / 63)%coqR by field.
by lra.
Qed.

(** Weights (1 - d, d) with d = 1e-13, inside the guarded interval. *)
Definition tiny : R := 1 / IZR 10000000000000.
Definition wdeg (i : 'I_2) : R := nth 0 [:: 1 - tiny; tiny] i.

Lemma tiny_gt0 : 0 < tiny. Proof. by rewrite /tiny; toR; lra. Qed.

Lemma wdeg_prob : prob_vec wdeg.
Proof.
split=> [[[|[|//]] ?]|]; rewrite /wdeg /tiny /=; try by toR; lra.
by rewrite !big_ord_recl big_ord0 /wdeg /tiny /=; toR; lra.
Qed.

Lemma wdeg_guarded : force_threshold 2 <= wdeg ord0.
Proof.
rewrite /force_threshold le_maxl /wdeg /=; apply/andP; split; last by rewrite /tiny; toR; lra.
rewrite ler_add2l ler_opp2 expRN.
have e2 : exp 2%:R <= IZR 9.
  rewrite (_ : 2%:R = 1 + 1) // expRD; toR.
  by have := exp_le_3; have := exp_pos 1%coqR; nra.
have e2' : (IZR 9)^-1 <= (exp 2%:R)^-1.
  by rewrite lef_pinv // posrE ?expR_gt0 //; toR; lra.
by apply: le_trans e2'; rewrite /tiny; toR; lra.
Qed.

Lemma fm_wdeg01 : fm wdeg ord0 (lift ord0 ord0) = 1 / 2%:R * (tiny / (1 - tiny)).
Proof.
rewrite /fm /force_rest ltNge wdeg_guarded /= prob_lt_small.
- by rewrite /wdeg /=; congr (_ * (_ / _)); toR; lra.
- by apply/andP; split; rewrite /wdeg /tiny /=; toR; lra.
- by rewrite /wdeg /tiny /=; toR; lra.
Qed.

Lemma fm_wdeg10 : fm wdeg (lift ord0 ord0) ord0 = 1.
Proof.
have h : wdeg (lift ord0 ord0) < force_threshold 2.
  by apply: thr_gt; rewrite /wdeg /tiny /=; toR; lra.
rewrite /fm /force_rest h /updR /= prob_lt_big.
- by rewrite /wdeg /= mulr1 divff // gt_eqF // /tiny; toR; lra.
- by rewrite /wdeg /tiny /=; toR; lra.
- by rewrite /wdeg /tiny /=; toR; lra.
- by rewrite /wdeg /tiny /=; toR; lra.
Qed.

Lemma wdeg_no_mass key :
  \sum_k wdeg k * E (index_of (@force_move 2) key wdeg k) (fun i => (i == lift ord0 ord0)%:R)
  <> \sum_k wdeg k * (k == lift ord0 ord0)%:R.
Proof.
rewrite !big_ord_recl !big_ord0 !E_force; try exact: wdeg_prob.
rewrite ![\sum_(_ | _) _]big_mkcond /= !big_ord_recl !big_ord0 /= fm_wdeg01 fm_wdeg10.
rewrite /wdeg /=.
have := tiny_gt0; have : tiny < 1 by rewrite /tiny; toR; lra.
move: tiny => d d1 d0 e; move: e.
have -> : d / (1 - d) = (1 - d)^-1 * d by rewrite mulrC.
toR => e; move: e.
have e1 : ((1 + - d) * / (1 + - d) = 1)%coqR by apply: Rinv_r; lra.
have : ((1 + - d) * (/ (1 + - d) * d) = d)%coqR by rewrite -Rmult_assoc e1; lra.
by lra.
Qed.

Lemma wdeg_not_peskun key :
  Pr (index_of (@force_move 2) key wdeg ord0) (pred1 (lift ord0 ord0)) < wdeg (lift ord0 ord0).
Proof.
rewrite force_law //; last exact: wdeg_prob.
rewrite fm_wdeg01 /wdeg /=.
have := tiny_gt0; have : tiny < 1 / IZR 4 by rewrite /tiny; toR; lra.
move: tiny => d d1 d0; toR.
have e1 : (/ (1 + - d) < 2)%coqR.
  rewrite -[X in (_ < X)%coqR]Rinv_inv; apply: Rinv_lt_contravar; last by lra.
  by apply: Rmult_lt_0_compat; lra.
by nra.
Qed.
