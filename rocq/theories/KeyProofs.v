(** * KeyProofs: pseudo-random keys are consumed once by resamplings.py, common.py and csmc.py. *)
From Coq Require Import Reals.
From mathcomp Require Import all_ssreflect all_algebra.
From Verif Require Import RInst Prog ProgTheory Resampling Csmc.

Set Implicit Arguments.
Unset Strict Implicit.
Unset Printing Implicit Defensive.
Import GRing.Theory Num.Theory Order.TTheory.
Local Open Scope ring_scope.

Lemma uses_scan (C I O : Type) (body : C -> I -> prog (C * O)) (kf : I -> key) ins c :
  pairwise indep (map kf ins) -> (forall c i, uses [:: kf i] (body c i)) ->
  uses (map kf ins) (scan body c ins).
Proof.
move=> + H; elim: ins c => [|i ins IH] c /=; first by move=> _; exact: uses_ret.
move=> /andP [al pw]; rewrite -cat1s.
apply: uses_bind => [||[c' o]]; first by rewrite allrel1l.
  exact: H.
rewrite -[map kf ins]cats0; apply: uses_bind => [||[c'' os]]; first by rewrite allrel0r.
  exact: IH.
exact: uses_ret.
Qed.

(** Children of one key. *)
Definition kids (key : key) (c m : nat) := [seq split key i | i <- iota c m].

Lemma kids_below key c m : all (below key) (kids key c m).
Proof. by apply/allP => k /mapP [i _ ->]; exact: below_split. Qed.

Lemma kids_indep key c m : pairwise indep (kids key c m).
Proof.
rewrite /kids; elim: m c => [|m IH] c //=; rewrite IH andbT.
apply/allP => k /mapP [i]; rewrite mem_iota => /andP [lt _] ->.
by apply: indep_split; rewrite neq_ltn lt.
Qed.

Lemma uses_root rs k A (m : prog A) : all (below k) rs -> uses rs m -> uses [:: k] m.
Proof. by move=> /allP al; apply: uses_sub => r /al /= ->. Qed.

Lemma uses_ret_bind rs A C (m : prog A) (g : A -> C) : uses rs m -> uses rs (do x <- m; Ret (g x)).
Proof.
move=> u; rewrite -[rs]cats0; apply: uses_bind => // [|a]; first by rewrite allrel0r.
exact: uses_ret.
Qed.

(** Each primitive consumes exactly what it is given. *)
Lemma uses_multinomial n key (w : 'I_n -> R) i j b : uses [:: key] (multinomial key w i j b).
Proof. by apply: uses_ret_bind; exact: uses_draw. Qed.

Lemma uses_killing n' key (w : 'I_n'.+1 -> R) i j b : uses [:: key] (killing key w i j b).
Proof.
apply: (@uses_root (kids key 0 3)); first exact: kids_below.
rewrite -[kids _ _ _]/([:: split key 0; split key 1] ++ [:: split key 2]).
apply: uses_bind => [||idx]; first by rewrite /allrel /= !indep_split.
  rewrite -[[:: _; _]]/([:: split key 0] ++ [:: split key 1]).
  apply: uses_bind => [||k]; first by rewrite /allrel /= !indep_split.
    exact: uses_draw.
  by apply: uses_ret_bind; exact: uses_draw.
case: b; last exact: uses_ret.
change (uses [:: split key 2] (do J <- choice (split key 2) (killing_J_prob w i); Ret (upd (roll idx (j - J)) j i))).
by apply: uses_ret_bind; exact: uses_draw.
Qed.

Lemma uses_force n key (w : 'I_n -> R) k : uses [:: key] (force_move key w k).
Proof.
apply: (@uses_root (kids key 0 2)); first exact: kids_below.
rewrite -[kids _ _ _]/([:: split key 0] ++ [:: split key 1]).
apply: uses_bind => [||i]; first by rewrite /allrel /= !indep_split.
  exact: uses_draw.
by apply: uses_ret_bind; exact: uses_draw.
Qed.

Lemma uses_barker n key (w : 'I_n -> R) k : uses [:: key] (barker_move key w k).
Proof. by apply: uses_ret_bind; exact: uses_draw. Qed.

Section Csmc.
Variables (X : Type) (n' : nat) (P Q : Type).
Local Notation n := n'.+1.
Variable md : model X n' P Q.
Variable rs : resampler n.
Variable mv : mover n.
Hypothesis rs_key : forall key w i j b, uses [:: key] (rs key w i j b).
Hypothesis mv_key : forall key w k, uses [:: key] (mv key w k).
Hypothesis m0_key : forall key, uses [:: key] (M0_rvs md key).
Hypothesis mt_key : forall key x p, uses [:: key] (Mt_rvs md key x p).

Lemma inputs_keys ps qs b0 bs key c (xs : seq X) :
  exists m, [seq i_key i | i <- @inputs X n' P Q ps qs b0 bs key c xs] = kids key c m.
Proof.
elim: ps qs b0 bs c xs => [|p ps IH] qs b0 bs c xs; first by exists 0%N.
case: qs bs xs => [|q qs] [|b bs] [|x xs]; try by exists 0%N.
by have [m /= ->] := IH qs b bs c.+1 xs; exists m.+1.
Qed.

Lemma uses_fwd key x0 xs b0 bs ps qs cond :
  uses [:: split key 0; split key 1] (forward_pass rs md key x0 xs b0 bs ps qs cond).
Proof.
rewrite -[[:: _; _]]/([:: split key 0] ++ [:: split key 1]).
apply: uses_bind => [||y]; first by rewrite /allrel /= indep_split.
  exact: m0_key.
rewrite -[[:: split key 1]]cats0; apply: uses_bind => [||[c o]]; first by rewrite allrel0r.
  have [m e] := inputs_keys ps qs b0 bs (split key 1) 0 xs.
  apply: (@uses_root (kids (split key 1) 0 m)); first exact: kids_below.
  rewrite -e; apply: uses_scan => [|[w x] i]; first by rewrite e kids_indep.
  apply: (@uses_root ([:: split (i_key i) 1] ++ [:: split (i_key i) 0])); first by rewrite /= !below_split.
  apply: uses_bind => [||A]; first by rewrite /allrel /= indep_split.
    exact: rs_key.
  by apply: uses_ret_bind; exact: mt_key.
exact: uses_ret.
Qed.

Lemma bwd_inputs_keys key c gens (qs : seq Q) :
  exists m, (m <= size gens)%N /\
    [seq i.1.1.1 | i <- @bwd_inputs X n' Q key c gens qs] = kids key c m.
Proof.
elim: gens qs c => [|[lw x] gens IH] [|q qs] c /=; try by exists 0%N.
by have [m [le /= ->]] := IH qs c.+1; exists m.+1.
Qed.

Lemma uses_sampling (Gam : X -> X -> Q -> R) key qs b (o : fwd_out X n') cond :
  uses [:: key] (backward_sampling_pass mv Gam key qs b o cond).
Proof.
rewrite /backward_sampling_pass; case: (last_gen o) => lw x.
have [m [le e]] := bwd_inputs_keys key 0 (behead (rev (gens o))) (rev qs).
have {}le : (m <= (size (gens o)).-1)%N by rewrite size_behead size_rev in le.
apply: (@uses_root ([:: split key (size (gens o)).-1] ++ kids key 0 m)).
  by rewrite /= below_split kids_below.
apply: uses_bind => [||[B al]].
- rewrite allrel1l; apply/allP => k /mapP [i]; rewrite mem_iota => /andP [_ lt] ->.
  by apply: indep_split; rewrite neq_ltn orbC (leq_trans lt le).
- case: cond => /=; [exact: mv_key|exact: uses_barker].
rewrite -[kids _ _ _]cats0; apply: uses_bind => [||[c os]]; first by rewrite allrel0r.
  rewrite -e; apply: uses_scan => [|y [[[k xm] l] q]]; first by rewrite e kids_indep.
  by apply: uses_ret_bind; exact: uses_draw.
exact: uses_ret.
Qed.

Lemma uses_scanning key b (o : fwd_out X n') :
  uses [:: key] (backward_scanning_pass mv key b o).
Proof.
rewrite /backward_scanning_pass; case: (last_gen o) => lw x.
rewrite -[[:: key]]cats0; apply: uses_bind => [||[B al]]; first by rewrite allrel0r.
  exact: mv_key.
rewrite -[[::]]cats0; apply: uses_bind => [||[c os]]; first by rewrite allrel0r.
  set ins := zip _ _; elim: ins B => [|[xm A] ins IH] B /=; first exact: uses_ret.
  rewrite -[[::]]cats0; apply: uses_bind => [||[c os]] //; exact: uses_ret.
exact: uses_ret.
Qed.

Lemma uses_kernel key x0 xs b0 bs ps qs backward cond :
  uses [:: key] (kernel rs mv md key x0 xs b0 bs ps qs backward cond).
Proof.
apply: (@uses_root ([:: split key 0; split key 1] ++ [:: split key 2])); first by rewrite /= !below_split.
apply: uses_bind => [||o]; first by rewrite /allrel /= !indep_split.
  exact: uses_fwd.
rewrite -[[:: split key 2]]cats0; apply: uses_bind => [||[xs' Bs]]; first by rewrite allrel0r.
  by case: backward; [exact: uses_sampling|exact: uses_scanning].
exact: uses_ret.
Qed.

End Csmc.
