(** * TablesAcf: the autocorrelations of Diagnostics.v in the tables of Tables.v (C81). *)
From Coq Require Import Reals.
From mathcomp Require Import all_ssreflect all_algebra.
From Verif Require Import RInst Experiments Diagnostics Tables TablesSpec TablesProofs.

Set Implicit Arguments.
Unset Strict Implicit.
Unset Printing Implicit Defensive.
Import GRing.Theory Num.Theory Order.TTheory.
Local Open Scope ring_scope.

Lemma cross_size L n C x r : cross_chains_autocorr L n C x = Some r -> size r = (minn n.-1 L).+1.
Proof.
rewrite /cross_chains_autocorr; case: (reduce_variance _ _) => //= v; case: ifP => // _.
by case=> <-; rewrite /= size_map size_iota.
Qed.

Lemma energy_acf_tables (K L n C : nat) (x : nat -> nat -> nat -> R) (r : nat -> seq R) : (0 < n)%N ->
  (forall k, (k < K)%N -> cross_chains_autocorr L n C (x k) = Some (r k)) ->
  let column := energy_acf_column K L [seq r k | k <- iota 0 K] in
  ((L < n)%N -> shows column (fun lb => (lb.1 < K)%N /\ (lb.2 <= L)%N) (fun lb => (r lb.1)`_(lb.2))) /\
  ((n <= L)%N -> (0 < K)%N -> (1 < n * K)%N -> column = None).
Proof.
move=> n0 h column; have sr k : (k < K)%N -> size (r k) = (minn n.-1 L).+1 by move/h/cross_size.
have nr k : (k < K)%N -> nth [::] [seq r k | k <- iota 0 K] k = r k.
  by move=> kK; rewrite (nth_map 0%N) ?size_iota // nth_iota.
split=> nL.
  have mL : minn n.-1 L = L by apply/minn_idPr; rewrite -ltnS prednK.
  have sh : shape2 [seq r k | k <- iota 0 K] K L.+1.
    by split=> [|k kK]; rewrite ?size_map ?size_iota // /shape1 nr // sr // mL.
  have [rows e [u m]] := acf_shows sh; exists rows => //; split=> // -[i j] v.
  apply: (iff_trans (m (i, j) v)) => /=.
  by split=> -[[iK jL] ->]; rewrite /at2 nr.
move=> K0 nK; apply/iloc_none.
have mn : (minn n.-1 L).+1 = n by rewrite (minn_idPl _) ?prednK // (leq_trans (leq_pred n)).
have -> : size (flatten [seq r k | k <- iota 0 K]) = (n * K)%N.
  rewrite size_flatten /shape -map_comp sumnE big_map.
  have -> : (\sum_(k <- iota 0 K) (size \o r) k = \sum_(k <- iota 0 K) n)%N.
    by rewrite !big_seq; apply: eq_bigr => k; rewrite mem_iota => /andP[_ kK]; rewrite /= sr ?mn.
  by rewrite big_const_seq iter_addn_0 count_predT size_iota.
rewrite size_product !size_iota; apply/andP; split; last by rewrite neq_ltn nK orbT.
by rewrite mulnC eqn_pmul2l // neq_ltn ltnS nL.
Qed.
