(** * KillingProofs: laws of the killing resampling scheme. *)
From Coq Require Import Reals Lra.
From mathcomp Require Import all_ssreflect all_algebra.
From Verif Require Import RInst Prog ProgTheory Resampling Spec ResamplingProofs.

Set Implicit Arguments.
Unset Strict Implicit.
Unset Printing Implicit Defensive.
Import GRing.Theory Num.Theory Order.TTheory.
Local Open Scope ring_scope.

(** Image of two product laws by a coordinate-wise map. *)
Lemma sum_prod_map (I B C Y : finType) (p : I -> B -> R) (q : I -> C -> R) (h : I -> B -> C -> Y)
    (F : {ffun I -> Y} -> R) :
  \sum_(e : {ffun I -> B}) (\prod_i p i (e i)) *
    (\sum_(r : {ffun I -> C}) (\prod_i q i (r i)) * F [ffun l => h l (e l) (r l)])
  = \sum_(A : {ffun I -> Y})
      (\prod_i \sum_(b : B) \sum_(c : C) p i b * q i c * (h i b c == A i)%:R) * F A.
Proof.
have ind (e : {ffun I -> B}) (r : {ffun I -> C}) (A : {ffun I -> Y}) :
  ([ffun l => h l (e l) (r l)] == A)%:R = \prod_i (h i (e i) (r i) == A i)%:R :> R.
  have [/eqP/ffunP eA|neA] := boolP (_ == A).
    by rewrite big1 // => i _; rewrite -eA ffunE eqxx.
  have [i /negbTE ni] : exists i, h i (e i) (r i) != A i.
    apply/existsP; apply: contraNT neA; rewrite negb_exists => /forallP H.
    apply/eqP/ffunP => i; rewrite ffunE; apply/eqP.
    by have := H i; rewrite negbK.
  by rewrite (bigD1 i) //= ni mul0r.
transitivity (\sum_(e : {ffun I -> B}) \sum_(r : {ffun I -> C}) \sum_(A : {ffun I -> Y})
   (\prod_i (p i (e i) * q i (r i) * (h i (e i) (r i) == A i)%:R)) * F A).
  apply: eq_bigr => e _; rewrite mulr_sumr; apply: eq_bigr => r _ /=.
  set A0 := [ffun l => _]; rewrite (bigD1 A0) //= [X in _ + X]big1 ?addr0 => [|A nA].
    rewrite !big_split /= mulrA; congr (_ * _).
    by rewrite -[LHS]mulr1; congr (_ * _); rewrite -ind eqxx.
  by rewrite big_split /= -ind -/A0 eq_sym (negbTE nA) mulr0 mul0r.
rewrite (eq_bigr (fun e : {ffun I -> B} => \sum_(A : {ffun I -> Y}) \sum_(r : {ffun I -> C})
   (\prod_i (p i (e i) * q i (r i) * (h i (e i) (r i) == A i)%:R)) * F A)); last first.
  by move=> e _; rewrite exchange_big.
rewrite exchange_big; apply: eq_bigr => A _ /=.
rewrite (eq_bigr (fun e : {ffun I -> B} =>
   (\prod_i \sum_(c : C) (p i (e i) * q i c * (h i (e i) c == A i)%:R)) * F A)); last first.
  move=> e _; rewrite -mulr_suml /=; congr (_ * _).
  by rewrite (sum_prod_ffun (fun i c => p i (e i) * q i c * (h i (e i) c == A i)%:R)).
rewrite -mulr_suml /=; congr (_ * _).
by rewrite (sum_prod_ffun (fun i b => \sum_(c : C) (p i b * q i c * (h i b c == A i)%:R))).
Qed.

Lemma clip_id (x : R) : 0 <= x <= 1 -> clip x 0 1 = x.
Proof. by move=> /andP [x0 x1]; rewrite /clip max_l // min_l. Qed.

Lemma le_amax n' (w : 'I_n'.+1 -> R) i : w i <= amax w.
Proof.
rewrite /amax; have := mem_index_enum i; elim: (index_enum _) => [|j r IH] //.
rewrite inE big_cons => /orP [/eqP <-|/IH h]; rewrite le_maxr ?lexx //.
by rewrite h orbT.
Qed.

Lemma amax_le n' (w : 'I_n'.+1 -> R) c : (forall i, w i <= c) -> amax w <= c.
Proof.
move=> H; rewrite /amax; elim/big_rec: _ => [|i x _ xc]; first exact: H.
by rewrite le_maxl H xc.
Qed.

Section Killing.
Variable n' : nat.
Local Notation n := n'.+1.
Variable w : 'I_n -> R.
Hypothesis pw : prob_vec w.

Lemma amax_ge i : w i <= amax w.
Proof. exact: le_amax. Qed.

Lemma amax_gt0 : 0 < amax w.
Proof.
rewrite ltNge; apply/negP => h.
have : \sum_i w i <= 0.
  by rewrite -oppr_ge0 -sumrN; apply: sumr_ge0 => i _; rewrite oppr_ge0; apply: le_trans (amax_ge i) h.
by rewrite (proj2 pw) ler10.
Qed.

Definition surv (l : 'I_n) : R := w l / amax w.

Lemma surv_01 l : 0 <= surv l <= 1.
Proof.
rewrite /surv ler_pdivr_mulr ?amax_gt0 // mul1r amax_ge andbT.
by apply: divr_ge0; [exact: (proj1 pw) | exact/ltW/amax_gt0].
Qed.

Lemma prob_lt_surv l : prob_lt (amax w) (w l) = surv l.
Proof. by rewrite /prob_lt amax_gt0 clip_id ?surv_01. Qed.

(** Law of the ancestor of position [l] under unconditional killing: kept with
    probability [w_l / w_max], otherwise redrawn. *)
Definition kill1 (l a : 'I_n) : R := surv l * (l == a)%:R + (1 - surv l) * w a.

Definition killing_law (A : {ffun 'I_n -> 'I_n}) : R := \prod_l kill1 l (A l).

Lemma kill1_sum l : \sum_a kill1 l a = 1.
Proof.
rewrite /kill1 big_split /= -!mulr_sumr /= (proj2 pw) mulr1.
rewrite (bigD1 l) //= eqxx big1 ?addr0 ?mulr1; last first.
  by move=> i; rewrite eq_sym => /negbTE ->.
by rewrite addrC subrK.
Qed.

Lemma kill1_ge0 l a : 0 <= kill1 l a.
Proof.
have /andP [h0 h1] := surv_01 l.
by apply: addr_ge0; apply: mulr_ge0 => //; rewrite ?ler0n ?subr_ge0 //; exact: (proj1 pw).
Qed.

Lemma killing_idx_law k1 k2 f :
  E (killing_idx k1 k2 w) f = \sum_A killing_law A * f A.
Proof.
rewrite /killing_idx E_bind /unifs_ge E_draw.
rewrite (eq_bigr (fun e : {ffun 'I_n -> bool} =>
  (\prod_i (if e i then 1 - surv i else surv i)) *
  (\sum_(r : {ffun 'I_n -> 'I_n}) (\prod_i w (r i)) * f [ffun l => if ~~ e l then l else r l]))); last first.
  move=> e _; congr (_ * _); last by rewrite E_bind E_choices.
  by apply: eq_bigr => i _; rewrite prob_lt_surv.
rewrite (sum_prod_map (fun i (b : bool) => if b then 1 - surv i else surv i) (fun _ => w)
          (fun l (b : bool) c => if ~~ b then l else c)).
apply: eq_bigr => A _; congr (_ * _); apply: eq_bigr => l _.
rewrite big_bool /= /kill1 addrC; congr (_ + _).
  rewrite (eq_bigr (fun c => w c * (surv l * (l == A l)%:R))); last by move=> c _; rewrite -mulrA mulrCA.
  by rewrite -mulr_suml /= (proj2 pw) mul1r.
rewrite (bigD1 (A l)) //= eqxx mulr1n mulr1 big1 ?addr0 // => c /negbTE ->.
by rewrite mulr0.
Qed.

(** Expected number of offspring. *)
Lemma sum_surv : \sum_l (1 - surv l) = n%:R - (amax w)^-1.
Proof.
by rewrite sumrB big_const_ord iter_addr_0 -mulr_suml /= (proj2 pw) mul1r.
Qed.

Lemma kill1_offspring i : \sum_l kill1 l i = n%:R * w i.
Proof.
rewrite /kill1 big_split /= -mulr_suml /= sum_surv.
rewrite (bigD1 i) //= eqxx mulr1 big1 ?addr0; last by move=> l /negbTE ->; rewrite mulr0.
by rewrite /surv mulrBl addrCA [_^-1 * _]mulrC subrr addr0.
Qed.

Lemma killing_law_marginal l (g : 'I_n -> R) :
  \sum_A killing_law A * g (A l) = \sum_a kill1 l a * g a.
Proof.
transitivity (\sum_(A : {ffun 'I_n -> 'I_n}) \prod_m (kill1 m (A m) * (if m == l then g (A m) else 1))).
  apply: eq_bigr => A _; rewrite big_split /=; congr (_ * _).
  rewrite (bigD1 l) //= eqxx big1 ?mulr1 // => m /negbTE ->; by [].
rewrite (sum_prod_ffun (fun m a => kill1 m a * (if m == l then g a else 1))).
rewrite (bigD1 l) //= eqxx [X in _ * X]big1 ?mulr1 // => m /negbTE ->.
by rewrite -[RHS](kill1_sum m); apply: eq_bigr => a _; rewrite mulr1.
Qed.

Lemma killing_unbiased k i j a :
  E (killing k w i j false) (fun A : {ffun 'I_n -> 'I_n} => (\sum_l (A l == a))%:R) = n%:R * w a.
Proof.
rewrite /killing E_bind.
rewrite (eq_Eg (g := fun A : {ffun 'I_n -> 'I_n} => \sum_l (A l == a)%:R)); last first.
  by move=> A /=; rewrite natr_sum.
rewrite E_sum -kill1_offspring; apply: eq_bigr => l _.
rewrite killing_idx_law (killing_law_marginal l (fun b => (b == a)%:R)).
by rewrite (bigD1 a) //= eqxx mulr1n mulr1 big1 ?addr0 // => b /negbTE ->; rewrite mulr0.
Qed.

(** The rotated law, and the conditional scheme. *)
Definition rotated_killing_law (A : {ffun 'I_n -> 'I_n}) : R :=
  n%:R^-1 * \sum_(s : 'I_n) killing_law (roll A (- s)).

Lemma natn_gt0 : (0 : R) < n%:R.
Proof. by rewrite ltr0n. Qed.

Lemma sum_others i : \sum_l updR (fun l => (1 - w l / amax w) / n%:R) i 0 l
   = (n%:R - (amax w)^-1 - (1 - surv i)) / n%:R.
Proof.
rewrite -sum_surv (bigD1 i) //= {1}/updR eqxx add0r [in RHS](bigD1 i) //=.
rewrite [_ + _ - _]addrC addKr mulr_suml /=; apply: eq_bigr => l li.
by rewrite /updR (negbTE li).
Qed.

Lemma J_prob_i i : killing_J_prob w i i = ((amax w)^-1 + (1 - surv i)) / n%:R.
Proof.
rewrite /killing_J_prob {1}/updR eqxx sum_others.
have nn0 : (n%:R : R) != 0 by rewrite gt_eqF ?natn_gt0.
have -> : 1 - (n%:R - (amax w)^-1 - (1 - surv i)) / n%:R = ((amax w)^-1 + (1 - surv i)) / n%:R.
  rewrite -[X in X - _](divff nn0) -mulrBl; congr (_ / _).
  by rewrite -addrA -opprD opprB addrC subrK.
rewrite max_l //.
have /andP [s0 s1] := surv_01 i.
apply: divr_ge0; last exact/ltW/natn_gt0.
by apply: addr_ge0; rewrite ?subr_ge0 // invr_ge0 ltW // amax_gt0.
Qed.

Lemma J_prob_other i l : l != i -> killing_J_prob w i l = (1 - surv l) / n%:R.
Proof. by move=> /negbTE li; rewrite /killing_J_prob {1}/updR li /updR li. Qed.

Lemma J_prob_prob i : prob_vec (killing_J_prob w i).
Proof.
have nn0 : (n%:R : R) != 0 by rewrite gt_eqF ?natn_gt0.
split=> [l|].
  have [->|li] := eqVneq l i.
    rewrite J_prob_i; have /andP [s0 s1] := surv_01 i.
    apply: divr_ge0; last exact/ltW/natn_gt0.
    by apply: addr_ge0; rewrite ?subr_ge0 // invr_ge0 ltW // amax_gt0.
  rewrite J_prob_other //; have /andP [s0 s1] := surv_01 l.
  by apply: divr_ge0; [rewrite subr_ge0 | exact/ltW/natn_gt0].
rewrite (bigD1 i) //= J_prob_i.
rewrite (eq_bigr (fun l => (1 - surv l) / n%:R)); last by move=> l li; rewrite J_prob_other.
rewrite -mulr_suml /= -mulrDl -addrA.
have := sum_surv; rewrite (bigD1 i) //= => ->.
by rewrite addrC subrK divff.
Qed.

(** Key identity: conditional rotation law times weight = unconditional law. *)
Lemma J_prob_kill1 i J : w i * killing_J_prob w i J = n%:R^-1 * kill1 J i.
Proof.
have [->|Ji] := eqVneq J i.
  rewrite J_prob_i /kill1 eqxx mulr1 mulrA mulrC; congr (_ * _).
  by rewrite mulrDr; congr (_ + _); rewrite mulrC.
rewrite J_prob_other // /kill1 (negbTE Ji) mulr0 add0r mulrA mulrC.
by rewrite [w i * _]mulrC.
Qed.

Lemma roll_roll (Y : Type) (A : {ffun 'I_n -> Y}) s s' : roll (roll A s) s' = roll A (s + s').
Proof. by apply/ffunP => i; rewrite !ffunE opprD addrA addrAC. Qed.

Lemma roll0 (Y : Type) (A : {ffun 'I_n -> Y}) : roll A 0 = A.
Proof. by apply/ffunP => i; rewrite !ffunE subr0. Qed.

Lemma upd_roll (Y : Type) (A : {ffun 'I_n -> Y}) (j J : 'I_n) v :
  upd (roll A (j - J)) j v = roll (upd A J v) (j - J).
Proof.
apply/ffunP => i; rewrite !ffunE; congr (if _ then _ else _).
by rewrite opprB addrCA -[X in _ = (_ == X)]addr0 (inj_eq (addrI J)) subr_eq0.
Qed.

Lemma E_killing_cond k i j f :
  E (killing k w i j true) f
  = \sum_J killing_J_prob w i J *
     \sum_(A : {ffun 'I_n -> 'I_n} | A J == i) (\prod_(l | l != J) kill1 l (A l)) * f (roll A (j - J)).
Proof.
rewrite /killing E_bind killing_idx_law /=.
transitivity (\sum_J killing_J_prob w i J *
   \sum_(A : {ffun 'I_n -> 'I_n}) killing_law A * f (upd (roll A (j - J)) j i)).
  rewrite (eq_bigr (fun A : {ffun 'I_n -> 'I_n} => \sum_J killing_J_prob w i J *
       (killing_law A * f (upd (roll A (j - J)) j i)))); last first.
    move=> A _; rewrite mulr_sumr /=; apply: eq_bigr => J _.
    by rewrite cat_law_prob; [rewrite mulrCA | exact: J_prob_prob].
  by rewrite exchange_big; apply: eq_bigr => J _; rewrite mulr_sumr.
apply: eq_bigr => J _; congr (_ * _).
rewrite (eq_bigr (fun A : {ffun 'I_n -> 'I_n} => killing_law A * f (roll (upd A J i) (j - J)))); last by move=> A _; rewrite upd_roll.
rewrite (@sum_upd _ _ kill1 J i (fun A => f (roll A (j - J)))) //.
exact: kill1_sum.
Qed.

Lemma killing_compat k :
  conditional_of w rotated_killing_law (fun i j => killing k w i j true).
Proof.
move=> i j f; rewrite E_killing_cond.
transitivity (\sum_(J : 'I_n) \sum_(A : {ffun 'I_n -> 'I_n} | A J == i)
   n%:R^-1 * killing_law A * f (roll A (j - J))).
  rewrite mulr_sumr; apply: eq_bigr => J _ /=.
  rewrite mulrA J_prob_kill1 -mulrA !mulr_sumr /=; apply: eq_bigr => A /eqP AJ.
  by rewrite !mulrA; congr (_ * _); rewrite /killing_law [in RHS](bigD1 J) //= AJ mulrA.
rewrite /rotated_killing_law.
rewrite [RHS](eq_bigr (fun A => \sum_(s : 'I_n) n%:R^-1 * killing_law (roll A (- s)) * f A)); last first.
  by move=> A _; rewrite -mulrA mulr_suml mulr_sumr /=; apply: eq_bigr => s _; rewrite mulrA.
rewrite [RHS]exchange_big /=.
rewrite (reindex_inj (h := fun s => j - s)) /=; last by move=> s s' /addrI /oppr_inj.
apply: eq_bigr => s _.
rewrite [RHS](reindex_inj (h := fun A => roll A s)) /=; last first.
  move=> A A' e; have := congr1 (fun B => roll B (- s)) e.
  by rewrite !roll_roll subrr !roll0.
apply: eq_big => [A|A _]; first by rewrite ffunE.
by rewrite roll_roll subrr roll0 opprB addrC subrK.
Qed.

(** Every probability law aspect of [rotated_killing_law]. *)
Lemma rotated_killing_law_prob : prob_vec rotated_killing_law.
Proof.
split=> [A|].
  apply: mulr_ge0; first by rewrite invr_ge0 ler0n.
  by apply: sumr_ge0 => s _; apply: prodr_ge0 => l _; exact: kill1_ge0.
rewrite -mulr_sumr exchange_big /=.
rewrite (eq_bigr (fun _ => 1)); last first.
  move=> s _; rewrite (reindex_inj (h := fun A => roll A s)) /=; last first.
    move=> A A' e; have := congr1 (fun B => roll B (- s)) e.
    by rewrite !roll_roll subrr !roll0.
  rewrite (eq_bigr (fun A : {ffun 'I_n -> 'I_n} => \prod_l kill1 l (A l))); last first.
    by move=> A _; rewrite roll_roll subrr roll0.
  by apply: sum_prod1; exact: kill1_sum.
by rewrite big_const_ord iter_addr_0 mulVf // gt_eqF ?natn_gt0.
Qed.

End Killing.

Lemma killing_keep n' k (w : 'I_n'.+1 -> R) i j :
  always (fun A : {ffun 'I_n'.+1 -> 'I_n'.+1} => A j = i) (killing k w i j true).
Proof. by move=> ? ? J /=; rewrite upd_at. Qed.

(** Uniform weights: nothing is killed. *)
Lemma killing_uniform n' k (w : 'I_n'.+1 -> R) i j :
  prob_vec w -> (forall l l', w l = w l') ->
  almost (fun A : {ffun 'I_n'.+1 -> 'I_n'.+1} => A = [ffun l => l]) (killing k w i j false).
Proof.
rewrite /killing /killing_idx => pw wu /= e pe r pr /=; apply/ffunP => l; rewrite !ffunE.
have /negbTE -> // : ~~ e l.
apply: contraNN pe => el; rewrite (bigD1 l) //= el prob_lt_surv //.
have amaxE : amax w = w l.
  apply/eqP; rewrite eq_le amax_ge andbT.
  by apply: amax_le => m; rewrite (wu m l).
rewrite /surv amaxE divff ?subrr ?mul0r //.
by rewrite -amaxE gt_eqF ?amax_gt0.
Qed.
