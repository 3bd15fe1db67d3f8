(** * DiagnosticsWitness: witnesses for C79 and C80. *)
From Coq Require Import Reals Lra.
From mathcomp Require Import all_ssreflect all_fingroup all_algebra.
From Verif Require Import RInst Diagnostics DiagnosticsSpec DiagnosticsProofs.

Set Implicit Arguments.
Unset Strict Implicit.
Unset Printing Implicit Defensive.
Import GRing.Theory Num.Theory Order.TTheory.
Local Open Scope ring_scope.

(** Five iterations, the first and the last equal to 1 and the others to 0, in two chains. *)
Definition wit_x (i _ : nat) : R := (i \in [:: 0; 4]%N)%:R.

Lemma wit_within : within_chain 5 2 wit_x = 6%:R / 25%:R.
Proof.
rewrite -within_mean // /axis_mean !big_ord_recl big_ord0 addr0 /= auto_cov0 /axis_mean !big_ord_recl !big_ord0 /wit_x /=.
by rewrite !expr2; toR; field.
Qed.

Lemma wit_lagged : lagged 5 2 wit_x 4 = 9%:R / 25%:R.
Proof.
rewrite -lagged_mean /axis_mean !big_ord_recl big_ord0 addr0 /= /auto_cov /axis_mean !big_ord_recl !big_ord0 /wit_x /=.
by toR; field.
Qed.

Lemma wit_between : between_chains 5 2 wit_x = 0.
Proof. by apply/between_eq0. Qed.

Lemma wit_above : exists2 r, cross_chains_autocorr MAX_LAG 5 2 wit_x = Some r & r`_4 = 3%:R / 2%:R.
Proof.
case E : (cross_chains_autocorr MAX_LAG 5 2 wit_x) => [r|].
  exists r => //; have [_ /(_ 4%N isT) ->] := cross_autocorr (isT : (0 < 5)%N) (isT : (1 < 2)%N) E.
  rewrite wit_between wit_within wit_lagged !addr0; by toR; field.
have := proj1 (cross_none wit_x (isT : (0 < 5)%N) (isT : (1 < 2)%N) MAX_LAG) E 0%N 1%N 0%N 0%N isT isT isT isT.
by rewrite /wit_x /= => /eqP; rewrite oner_eq0.
Qed.

(** A single chain that moves. *)
Definition wit_move (i _ : nat) : R := i%:R.

Lemma wit_one : ~ all_equal 2 1 wit_move.
Proof. by move=> /(_ 0%N 1%N 0%N 0%N isT isT isT isT) /eqP; rewrite /wit_move eqr_nat. Qed.

Lemma wit_unsaved : exists2 r, samples_acf 2 1 wit_move = Some r & saved_acf r = None.
Proof.
case E : (samples_acf 2 1 wit_move) => [r|].
  by exists r => //; rewrite (saved_acf_ok (isT : (0 < 2)%N) (isT : (0 < 1)%N) E).
have [[|//] _ st] := proj1 (samples_acf_none 1 wit_move (isT : (0 < 2)%N)) E.
by have /eqP := st 0%N 1%N 0%N isT isT isT; rewrite /wit_move eqr_nat.
Qed.

Lemma wit_stuck : exists2 r, cross_chains_autocorr MAX_LAG 7 2 (fun _ c => c%:R) = Some r & forall l, (l < size r)%N -> r`_l = 1.
Proof.
case E : (cross_chains_autocorr MAX_LAG 7 2 (fun _ c => c%:R)) => [r|].
  by exists r => // l ls; apply: (cross_stuck (isT : (0 < 7)%N) (isT : (1 < 2)%N) _ E ls).
have /eqP := proj1 (cross_none _ (isT : (0 < 7)%N) (isT : (1 < 2)%N) MAX_LAG) E 0%N 0%N 0%N 1%N isT isT isT isT.
by rewrite eqr_nat.
Qed.

Lemma autocorr_249 (n C : nat) (x : nat -> nat -> R) r : (249 < n)%N -> (1 < C)%N ->
  cross_chains_autocorr MAX_LAG n C x = Some r -> is_autocorr 249 n C x r.
Proof.
move=> n0 C1 E; have p : (0 < n)%N by apply: leq_ltn_trans n0.
have := cross_autocorr p C1 E; have -> : minn n.-1 MAX_LAG = MAX_LAG; last exact.
by apply/minn_idPr; rewrite -ltnS prednK.
Qed.
