(** * ExperimentKeys: random keys of the data generators and of the experiments. *)
From Coq Require Import Reals.
From mathcomp Require Import all_ssreflect all_algebra.
From Verif Require Import RInst Prog ProgTheory Csmc KeyProofs SmoothKeys Experiments.

Set Implicit Arguments.
Unset Strict Implicit.
Unset Printing Implicit Defensive.
Import GRing.Theory Num.Theory Order.TTheory.
Local Open Scope ring_scope.

Lemma lg_data_keys (N0 N1 : finType) (A : Type) (noise0 : N0 -> R) (noises : N1 -> R) (build : N0 -> N1 -> A) key ks a :
  runs (lg_get_data_prog noise0 noises build key) ks a -> ks = [:: split key 0; split key 0].
Proof.
by move=> /= [b1 [k1 [-> [b2 [k2 [-> [-> _]]]]]]].
Qed.

Lemma lg_data_reuse (N0 N1 : finType) (A : Type) (noise0 : N0 -> R) (noises : N1 -> R) (build : N0 -> N1 -> A) key rs (n0 : N0) (n1 : N1) :
  ~ uses rs (lg_get_data_prog noise0 noises build key).
Proof.
have r : runs (lg_get_data_prog noise0 noises build key) [:: split key 0; split key 0] (build n0 n1).
  by exists n0, [:: split key 0]; split=> //; exists n1, [::].
by move/(_ _ _ r) => /andP [] /=; rewrite /antichain /= /indep /below prefix_refl.
Qed.

Lemma uses_scan_zip (C B O : Type) (body : C -> nat * B -> prog (C * O)) key c n (l : seq B) :
  (forall c i, uses [:: split key i.1] (body c i)) -> uses [:: key] (scan body c (zip (iota 0 n) l)).
Proof.
move=> H; have e m : [seq split key i.1 | i <- zip (iota m n) l] = kids key m (minn n (size l)).
  by rewrite /kids; elim: n l m => [|n IH] [|b l] m //=; rewrite IH minnSS.
apply: (@uses_root [seq split key i.1 | i <- zip (iota 0 n) l]); first by rewrite e kids_below.
by apply: uses_scan => //; rewrite e kids_indep.
Qed.

Lemma uses_scan_iota (C O : Type) (body : C -> nat -> prog (C * O)) key c n :
  (forall c i, uses [:: split key i] (body c i)) -> uses [:: key] (scan body c (iota 0 n)).
Proof.
move=> H; apply: (@uses_root (kids key 0 n)); first exact: kids_below.
by apply: uses_scan => //; exact: kids_indep.
Qed.

Section Sv.
Variables (N : finType) (S O : Type) (noise : N -> R) (fst : N -> S) (obs : S -> N -> O) (next : S -> N -> S).
Lemma sv_data_uses key T : uses [:: key] (sv_get_data_prog noise fst obs next key T).
Proof.
apply: (@uses_root ([:: split key 0] ++ [:: split key 1])); first by rewrite /= !below_split.
apply: uses_bind => [||e]; first by rewrite /allrel /= indep_split.
  exact: uses_draw.
rewrite -/(kids (split key 1) 0 T); apply: (@uses_root (kids (split key 1) 0 T)); first exact: kids_below.
rewrite -[X in uses X](map_id (kids _ _ _)); apply: uses_scan => [|x k]; first by rewrite map_id; exact: kids_indep.
apply: (@uses_root ([:: split k 1] ++ [:: split k 0])); first by rewrite /= !below_split.
apply: uses_bind => [||ey]; first by rewrite /allrel /= indep_split.
  exact: uses_draw.
by apply: uses_ret_bind; exact: uses_draw.
Qed.
End Sv.

Lemma lg_experiment_uses (D S A : Type) (get_data : key -> prog D) (init : key -> D -> prog (nat -> S)) (kern : D -> key -> S -> prog A) key K M :
  (forall key, uses [:: key] (get_data key)) -> (forall key data, uses [:: key] (init key data)) ->
  (forall data key s, uses [:: key] (kern data key s)) -> uses [:: key] (lg_experiment get_data init kern key K M).
Proof.
move=> ug ui uk; apply: uses_scan_iota => _ k; apply: uses_ret_bind; move: (split key k) => {}key.
apply: (@uses_root ([:: split key 0] ++ [:: split key 1] ++ [:: split key 2])); first by rewrite /= !below_split.
apply: uses_bind => [||data]; [by rewrite /allrel /= !indep_split|exact: ug|].
apply: uses_bind => [||st]; [by rewrite /allrel /= !indep_split|exact: ui|].
by apply: uses_scan_iota => _ m; apply: uses_ret_bind; exact: uk.
Qed.

Lemma sv_experiment_uses (D S P A : Type) (get_data : key -> prog D) (init : key -> D -> prog S) (adapt : D -> key -> S -> prog (S * P))
    (burnin : D -> P -> key -> S -> prog S) (sample : D -> P -> key -> S -> prog A) key K M :
  (forall key, uses [:: key] (get_data key)) -> (forall key data, uses [:: key] (init key data)) ->
  (forall data key s, uses [:: key] (adapt data key s)) -> (forall data p key s, uses [:: key] (burnin data p key s)) ->
  (forall data p key s, uses [:: key] (sample data p key s)) ->
  uses [:: key] (sv_experiment get_data init adapt burnin sample key K M).
Proof.
move=> ug ui ua ub us; apply: uses_scan_iota => _ k; apply: uses_ret_bind; move: (split key k) => {}key.
apply: (@uses_root ([:: split key 0] ++ [:: split key 1] ++ [:: split key 2] ++ [:: split key 3] ++ [:: split key 4])); first by rewrite /= !below_split.
apply: uses_bind => [||data]; [by rewrite /allrel /= !indep_split|exact: ug|].
apply: uses_bind => [||st]; [by rewrite /allrel /= !indep_split|exact: ui|].
apply: uses_bind => [||[st' p]]; [by rewrite /allrel /= !indep_split|exact: ua|].
apply: uses_bind => [||[_ bs]]; [by rewrite /allrel /= !indep_split| |].
  by apply: uses_scan_iota => _ m; apply: uses_ret_bind; exact: ub.
by apply: uses_scan_zip => _ [m s]; apply: uses_ret_bind; exact: us.
Qed.
