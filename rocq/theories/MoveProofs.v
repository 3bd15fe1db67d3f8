(** * MoveProofs: laws of the Barker and forced moves. *)
From Coq Require Import Reals Lra.
From mathcomp Require Import all_ssreflect all_algebra.
From Verif Require Import RInst Prog ProgTheory Resampling Spec ResamplingProofs KillingProofs.

Set Implicit Arguments.
Unset Strict Implicit.
Unset Printing Implicit Defensive.
Import GRing.Theory Num.Theory Order.TTheory.
Local Open Scope ring_scope.

(** The index returned by a move. *)
Definition index_of n (mv : mover n) (k : key) (w : 'I_n -> R) (i : 'I_n) : prog 'I_n :=
  do r <- mv k w i; Ret r.1.

Lemma E_index_of n (mv : mover n) k w i f :
  E (index_of mv k w i) f = E (mv k w i) (fun r => f r.1).
Proof. by rewrite /index_of E_bind. Qed.

(** ** Barker *)
Section Barker.
Variables (n : nat) (w : 'I_n -> R).
Hypothesis pw : prob_vec w.

Lemma E_barker key k f : E (index_of (@barker_move n) key w k) f = \sum_i w i * f i.
Proof. by rewrite E_index_of /barker_move E_bind -(E_choice key). Qed.

Lemma sum_delta (l : 'I_n) (g : 'I_n -> R) : \sum_i g i * (i == l)%:R = g l.
Proof. by rewrite (bigD1 l) //= eqxx mulr1 big1 ?addr0 // => i /negbTE ->; rewrite mulr0. Qed.

Lemma barker_law key k l : Pr (index_of (@barker_move n) key w k) (pred1 l) = w l.
Proof. by rewrite /Pr E_barker sum_delta. Qed.

Lemma barker_invariant key : invariant_move w (index_of (@barker_move n) key w).
Proof.
move=> f; under eq_bigr do rewrite E_barker.
by rewrite -mulr_suml (proj2 pw) mul1r.
Qed.

Lemma barker_leave key k :
  always (fun r => r.2 = Pr (index_of (@barker_move n) key w k) (fun i => i != k))
         (barker_move key w k).
Proof.
move=> i /=; rewrite /Pr E_barker -[X in X - _](proj2 pw).
rewrite [RHS](eq_bigr (fun i => w i - w i * (i == k)%:R)); last first.
  by move=> l _; case: eqP => _ /=; rewrite ?mulr0 ?mulr1 ?subr0 ?subrr.
by rewrite sumrB sum_delta.
Qed.
End Barker.

(** ** Forced move *)
Lemma force_threshold_lt1 n : force_threshold n < 1.
Proof.
rewrite /force_threshold lt_maxl !ltr_subl_addr !ltr_addl expR_gt0 /=.
by apply: divr_gt0 => //; apply/RltE; apply: IZR_lt.
Qed.

Lemma force_threshold_ge n : 1 - 1 / IZR 1000000000000 <= force_threshold n.
Proof. by rewrite /force_threshold le_maxr lexx orbT. Qed.

Lemma force_threshold_ge' n : 1 - exp (- n%:R) <= force_threshold n.
Proof. by rewrite /force_threshold le_maxr lexx. Qed.

Lemma prob_lt_01 (a b : R) : 0 <= prob_lt a b <= 1.
Proof.
have c01 x : 0 <= clip x 0 1 <= 1.
  by rewrite /clip le_minr le_maxr lexx orbT ler01 le_minl lexx orbT.
rewrite /prob_lt; case: ifP => _; first exact: c01.
case: ifP => _; first by case: ifP; rewrite ?lexx ler01.
have /andP [h0 h1] := c01 (b / a).
by rewrite subr_ge0 h1 /= ler_subl_addr ler_addl h0.
Qed.

Lemma prob_lt_small (a b : R) : 0 <= b <= a -> 0 < a -> prob_lt a b = b / a.
Proof.
move=> /andP [b0 ba] a0; rewrite /prob_lt a0 clip_id //.
by rewrite divr_ge0 ?(ltW a0) //= ler_pdivr_mulr // mul1r.
Qed.

Lemma prob_lt_big (a b : R) : 0 <= a -> a <= b -> 0 < b -> prob_lt a b = 1.
Proof.
rewrite le_eqVlt => /orP [/eqP <- _ b0|a0 ab b0]; first by rewrite /prob_lt ltxx eqxx b0.
rewrite /prob_lt a0 /clip min_r // le_maxr; apply/orP; left.
by rewrite ler_pdivl_mulr // mul1r.
Qed.

Lemma prob_lt0 (a : R) : 0 <= a -> prob_lt a 0 = 0.
Proof.
rewrite le_eqVlt => /orP [/eqP <-|a0]; first by rewrite /prob_lt ltxx eqxx.
by rewrite prob_lt_small // ?mul0r // lexx ltW.
Qed.

Section Force.
Variables (n' : nat).
Local Notation n := n'.+1.
Variable w : 'I_n -> R.
Hypothesis pw : prob_vec w.
Implicit Types k l i : 'I_n.

Lemma w_ge0 i : 0 <= w i. Proof. exact: (proj1 pw). Qed.

Lemma w_others k : \sum_(i | i != k) w i = 1 - w k.
Proof. by rewrite -(proj2 pw) [in RHS](bigD1 k) //= [w k + _]addrC addrK. Qed.

Lemma w_pair k l : k != l -> w k + w l <= 1.
Proof.
move=> kl; rewrite -(proj2 pw) (bigD1 k) //= (bigD1 l) 1?eq_sym //= addrA ler_addl.
by apply: sumr_ge0 => i _; exact: w_ge0.
Qed.

Lemma w_le1 k : w k <= 1.
Proof. by rewrite -subr_ge0 -w_others; apply: sumr_ge0 => i _; exact: w_ge0. Qed.

Lemma rest_sum k : \sum_i force_rest w k i = 1.
Proof.
rewrite /force_rest; case: ifP => [h|_]; last first.
  by rewrite big_const_ord iter_addr_0 mul1r -[LHS]mulr_natl divff // pnatr_eq0.
rewrite -mulr_suml (bigD1 k) //= /updR eqxx add0r.
rewrite (eq_bigr w); last by move=> i /negbTE ->.
rewrite w_others divff // subr_eq0 eq_sym lt_eqF //.
exact: lt_trans h (force_threshold_lt1 _).
Qed.

Lemma rest_ge0 k i : 0 <= force_rest w k i.
Proof.
rewrite /force_rest; case: ifP => _; last by rewrite divr_ge0 ?ler0n ?ler01.
rewrite divr_ge0 ?subr_ge0 ?w_le1 //.
by rewrite /updR; case: ifP => _ //; exact: w_ge0.
Qed.

Lemma rest_prob k : prob_vec (force_rest w k).
Proof. by split=> [i|]; [exact: rest_ge0 | exact: rest_sum]. Qed.

(** One-step probability of going from [k] to [l != k] in the code. *)
Definition fm k l : R := force_rest w k l * prob_lt (1 - w l) (1 - w k).

Lemma E_force key k f :
  E (index_of (@force_move n) key w k) f = f k + \sum_(l | l != k) fm k l * (f l - f k).
Proof.
rewrite E_index_of /force_move E_bind E_choice; last exact: rest_prob.
transitivity (\sum_i (force_rest w k i * f k + fm k i * (f i - f k))).
  apply: eq_bigr => i _; rewrite E_bind /unif_lt E_draw big_bool /=.
  rewrite /fm -mulrA -mulrDr; congr (_ * _).
  by rewrite mulrBl mul1r addrCA -mulrBr.
rewrite big_split /= -mulr_suml rest_sum mul1r; congr (_ + _).
by rewrite (bigD1 k) //= subrr mulr0 add0r.
Qed.

Lemma force_law key k l : k != l -> Pr (index_of (@force_move n) key w k) (pred1 l) = fm k l.
Proof.
move=> kl; rewrite /Pr E_force /= (negbTE kl) add0r.
rewrite (bigD1 l) 1?eq_sym //= eqxx subr0 mulr1 big1 ?addr0 //.
by move=> i /andP [_ /negbTE ->]; rewrite subr0 mulr0.
Qed.

Lemma force_leave key k :
  Pr (index_of (@force_move n) key w k) (fun i => i != k) = \sum_(l | l != k) fm k l.
Proof.
rewrite /Pr E_force eqxx add0r; apply: eq_bigr => l lk.
by rewrite lk subr0 mulr1.
Qed.

(** The textbook forced move: propose from the other indices in proportion to
    their weights, accept with probability min(1, (1 - w_k)/(1 - w_l)). *)
Definition ideal k l : R := if w k < 1 then w l / (1 - w k) * prob_lt (1 - w l) (1 - w k) else 0.

Lemma ideal_le k l : k != l -> w k <= w l -> w k < 1 -> ideal k l = w l / (1 - w k).
Proof.
move=> kl le k1; rewrite /ideal k1 prob_lt_big ?mulr1 ?subr_gt0 //.
  by rewrite subr_ge0 w_le1.
by rewrite ler_add2l ler_opp2.
Qed.

Lemma ideal_ge k l : k != l -> w l <= w k -> w k < 1 -> ideal k l = w l / (1 - w l).
Proof.
move=> kl le k1; have l1 := le_lt_trans le k1.
rewrite /ideal k1 prob_lt_small ?subr_gt0 //; last first.
  by rewrite subr_ge0 ltW //= ler_add2l ler_opp2.
by rewrite mulrA divfK // gt_eqF // subr_gt0.
Qed.

Lemma w1_others k l : k != l -> w k = 1 -> w l = 0.
Proof.
move=> kl k1; apply/eqP; rewrite eq_le w_ge0 andbT.
by have := w_pair kl; rewrite k1 -subr_ge0 opprD addrA subrr add0r oppr_ge0.
Qed.

Lemma lt1_or k : w k < 1 \/ w k = 1.
Proof. by have := w_le1 k; rewrite le_eqVlt => /orP [/eqP ->|->]; [right|left]. Qed.

Lemma ideal_rev k l : k != l -> w k * ideal k l = w l * ideal l k.
Proof.
wlog le : k l / w k <= w l.
  by move=> H kl; case/orP: (le_total (w k) (w l)) => h; [|symmetry]; apply: H => //; rewrite eq_sym.
move=> kl; have lk : l != k by rewrite eq_sym.
have [l1|l1] := lt1_or l.
  have k1 := le_lt_trans le l1.
  by rewrite ideal_le // ideal_ge // mulrCA.
have k0 := w1_others lk l1.
by rewrite k0 mul0r /ideal l1 ltxx mulr0.
Qed.

Lemma fm_ideal k l : k != l -> w k < force_threshold n \/ w k = 1 -> fm k l = ideal k l.
Proof.
move=> kl [h|h]; rewrite /fm /ideal /force_rest.
  have -> : w k < 1 by exact: lt_trans h (force_threshold_lt1 _).
  by rewrite h /updR eq_sym (negbTE kl).
by rewrite h subrr prob_lt0 ?mulr0 ?ltxx // subr_ge0 w_le1.
Qed.

Lemma balance_sum (P : 'I_n -> 'I_n -> R) f :
  (forall k l, k != l -> w k * P k l = w l * P l k) ->
  \sum_k w k * (f k + \sum_(l | l != k) P k l * (f l - f k)) = \sum_k w k * f k.
Proof.
move=> H; under eq_bigr do rewrite mulrDr.
rewrite big_split /=; apply/eqP; rewrite -subr_eq0 addrC addKr; apply/eqP.
have -> : \sum_k w k * (\sum_(l | l != k) P k l * (f l - f k))
   = \sum_k \sum_(l | l != k) (w k * P k l * f l) - \sum_k \sum_(l | l != k) (w k * P k l * f k).
  rewrite -sumrB; apply: eq_bigr => k _; rewrite mulr_sumr -sumrB.
  by apply: eq_bigr => l _; rewrite mulrBr mulrBr !mulrA.
apply/eqP; rewrite subr_eq0; apply/eqP.
rewrite (exchange_big_dep xpredT) //=; apply: eq_bigr => l _.
rewrite (eq_bigl (fun k => k != l)); last by move=> k; rewrite eq_sym.
by apply: eq_bigr => k kl; rewrite H.
Qed.

(** Exact invariance and reversibility when no weight falls in the guarded
    interval [[threshold, 1)]. *)
Lemma force_reversible key :
  (forall k, w k < force_threshold n \/ w k = 1) ->
  reversible_move w (index_of (@force_move n) key w).
Proof.
move=> H k l; have [->|kl] := eqVneq k l; first by [].
have lk : l != k by rewrite eq_sym.
by rewrite !force_law // !fm_ideal // ideal_rev.
Qed.

Lemma force_invariant key :
  (forall k, w k < force_threshold n \/ w k = 1) ->
  invariant_move w (index_of (@force_move n) key w).
Proof.
move=> H f; under eq_bigr do rewrite E_force.
rewrite -[RHS](balance_sum f (fun k l => @ideal_rev k l)).
by apply: eq_bigr => k _; congr (_ * (_ + _)); apply: eq_bigr => l lk; rewrite fm_ideal // eq_sym.
Qed.

(** In the guarded interval the error is bounded by its width. *)
Lemma threshold_ge_half : 1 / 2%:R <= force_threshold n.
Proof.
apply: le_trans (force_threshold_ge _).
rewrite (_ : 2%:R = IZR 2); last by rewrite RnatE /=; lra.
by toR; lra.
Qed.

Lemma guarded_unique k l : force_threshold n <= w k -> w k < 1 -> k != l -> w l < force_threshold n.
Proof.
move=> tk k1 kl; rewrite ltNge; apply/negP => tl.
have := w_pair kl; rewrite leNgt => /negP; apply.
have h := force_threshold_ge n.
apply: lt_le_trans (ler_add tk tl); apply: lt_le_trans (ler_add h h).
by toR; lra.
Qed.

Lemma force_quasi_invariant key (f : 'I_n -> R) (c : R) :
  (forall k, `|f k| <= c) ->
  `|\sum_k w k * E (index_of (@force_move n) key w k) f - \sum_k w k * f k|
    <= 4%:R * c * (1 - force_threshold n).
Proof.
move=> fc.
have c0 : 0 <= c by exact: le_trans (normr_ge0 _) (fc ord0).
have t0 : 0 <= 1 - force_threshold n by rewrite subr_ge0 ltW // force_threshold_lt1.
have [|nog] := boolP [exists k, (force_threshold n <= w k) && (w k < 1)]; last first.
  rewrite force_invariant ?subrr ?normr0.
    by rewrite !mulr_ge0 // ler0n.
  move=> k; have [h|h] := ltP (w k) (force_threshold n); first by left.
  right; move: nog; rewrite negb_exists => /forallP /(_ k); rewrite h /= -leNgt => h1.
  by apply/eqP; rewrite eq_le h1 w_le1.
move=> /existsP [k0 /andP [tk k1]].
rewrite -(balance_sum f (fun k l => @ideal_rev k l)) -sumrB.
rewrite (bigD1 k0) // [X in `|_ + X|]big1 ?addr0; last first.
  move=> k kk0; rewrite E_force; apply/eqP; rewrite subr_eq0; apply/eqP.
  congr (_ * (_ + _)); apply: eq_bigr => l lk; rewrite fm_ideal // 1?eq_sym //.
  by left; apply: guarded_unique tk k1 _; rewrite eq_sym.
rewrite E_force -mulrBr opprD addrACA subrr add0r -sumrB.
rewrite normrM ger0_norm ?w_ge0 //.
have bnd : `|\sum_(l | l != k0) (fm k0 l * (f l - f k0) - ideal k0 l * (f l - f k0))|
    <= \sum_(l | l != k0) ((fm k0 l + ideal k0 l) * (2%:R * c)).
  apply: le_trans (ler_norm_sum _ _ _) _; apply: ler_sum => l lk.
  rewrite -mulrBl normrM.
  have fm0 : 0 <= fm k0 l by apply: mulr_ge0; [exact: rest_ge0|case/andP: (prob_lt_01 (1 - w l) (1 - w k0))].
  have id0 : 0 <= ideal k0 l.
    rewrite /ideal k1; apply: mulr_ge0; last by case/andP: (prob_lt_01 (1 - w l) (1 - w k0)).
    by rewrite divr_ge0 ?w_ge0 // subr_ge0 w_le1.
  apply: ler_pmul; rewrite ?normr_ge0 //.
    by apply: le_trans (ler_norm_sub _ _) _; rewrite !ger0_norm.
  apply: le_trans (ler_norm_sub _ _) _.
  by rewrite mulr_natl mulr2n ler_add.
have wlk l : l != k0 -> w l <= w k0.
  move=> lk; have := guarded_unique tk k1 (l := l); rewrite eq_sym => /(_ lk) h.
  exact: le_trans (ltW h) tk.
apply: le_trans (ler_pmul _ _ (lexx (w k0)) bnd) _; rewrite ?w_ge0 ?normr_ge0 //.
rewrite -mulr_suml mulrA.
have key1 : w k0 * (\sum_(l | l != k0) (fm k0 l + ideal k0 l)) <= 2%:R * (1 - w k0).
  rewrite mulr_sumr.
  have st : forall l, l != k0 -> w k0 * (fm k0 l + ideal k0 l) <= (1 - w k0) / n%:R + w l.
    move=> l lk; have kl : k0 != l by rewrite eq_sym.
    have l1 : w l < 1 by exact: le_lt_trans (wlk l lk) k1.
    have dl : 0 < 1 - w l by rewrite subr_gt0.
    rewrite ideal_ge ?wlk //.
    have -> : fm k0 l = (1 - w k0) / n%:R / (1 - w l).
      rewrite /fm /force_rest ltNge tk /= prob_lt_small //; last first.
        by rewrite subr_ge0 w_le1 /= ler_add2l ler_opp2 wlk.
      by rewrite mul1r mulrCA mulrA.
    rewrite -mulrDl mulrA ler_pdivr_mulr // mulrC; apply: ler_pmul => //.
    + by apply: addr_ge0; [rewrite divr_ge0 ?ler0n // subr_ge0 w_le1|exact: w_ge0].
    + exact: w_ge0.
    + by rewrite ler_subr_addl addrC w_pair.
  apply: le_trans (ler_sum _ st) _; rewrite big_split /= w_others.
  rewrite mulr_natl mulr2n ler_add2r.
  apply: le_trans (_ : \sum_(l : 'I_n) (1 - w k0) / n%:R <= _).
    rewrite [X in _ <= X](bigD1 k0) //= ler_addr divr_ge0 ?ler0n //.
    by rewrite subr_ge0 w_le1.
  by rewrite big_const_ord iter_addr_0 -mulr_natr mulfVK // pnatr_eq0.
set S := \sum_(_ | _) _ in key1 *.
have key2 : w k0 * S <= 2%:R * (1 - force_threshold n).
  by apply: le_trans key1 _; rewrite ler_pmul2l ?ltr0n // ler_add2l ler_opp2.
have -> : w k0 * (S * 2%:R * c) = (2%:R * c) * (w k0 * S).
  by Rring.
have -> : 4%:R * c * (1 - force_threshold n) = (2%:R * c) * (2%:R * (1 - force_threshold n)).
  by rewrite mulrACA -natrM mulrA.
by apply: ler_wpmul2l => //; rewrite mulr_ge0 // ler0n.
Qed.

(** Peskun ordering with respect to the Barker move. *)
Lemma force_peskun key k l :
  k != l -> w k < force_threshold n \/ w k = 1 ->
  w l <= Pr (index_of (@force_move n) key w k) (pred1 l).
Proof.
move=> kl H; rewrite force_law // fm_ideal //.
have [k1|k1] := lt1_or k; last by rewrite (w1_others kl k1) /ideal k1 ltxx.
have le_div x : x < 1 -> 0 <= x -> w l <= w l / (1 - x).
  move=> x1 x0; rewrite ler_pdivl_mulr ?subr_gt0 // mulrBr mulr1 ler_subl_addr ler_addl.
  by rewrite mulr_ge0 // w_ge0.
case/orP: (le_total (w k) (w l)) => le.
  by rewrite ideal_le // le_div // w_ge0.
by rewrite ideal_ge // le_div ?w_ge0 //; exact: le_lt_trans le k1.
Qed.

Lemma force_stay key k :
  w k < force_threshold n \/ w k = 1 ->
  Pr (index_of (@force_move n) key w k) (pred1 k) <= w k.
Proof.
move=> H.
have -> : Pr (index_of (@force_move n) key w k) (pred1 k)
   = 1 - Pr (index_of (@force_move n) key w k) (fun i => i != k).
  rewrite force_leave /Pr E_force /= eqxx; congr (_ + _).
  rewrite -sumrN; apply: eq_bigr => l /negbTE ->.
  by rewrite sub0r mulrN mulr1.
rewrite ler_subl_addr -ler_subl_addl -w_others force_leave.
apply: ler_sum => l lk; rewrite -(force_law key) 1?eq_sym //.
by apply: force_peskun; rewrite // eq_sym.
Qed.

(** ** The reported acceptance probability. *)
Lemma force_alpha_out key k : always (fun r => r.2 = force_alpha w k) (force_move key w k).
Proof. by move=> i /= e. Qed.

Lemma leave_le1 key k : Pr (index_of (@force_move n) key w k) (fun i => i != k) <= 1.
Proof.
rewrite force_leave -(rest_sum k) [X in _ <= X](bigD1 k) //= .
apply: le_trans (_ : \sum_(l | l != k) force_rest w k l <= _); last by rewrite ler_addr rest_ge0.
apply: ler_sum => l _; rewrite /fm ler_pimulr ?rest_ge0 //.
by case/andP: (prob_lt_01 (1 - w l) (1 - w k)).
Qed.

Lemma force_alpha_ge key k :
  Pr (index_of (@force_move n) key w k) (fun i => i != k) <= force_alpha w k.
Proof.
rewrite /force_alpha; case: ifPn => [_|]; first exact: leave_le1.
rewrite negb_exists => /forallP H.
rewrite /clip le_minr leave_le1 andbT le_maxr; apply/orP; left.
rewrite force_leave [X in _ <= X]big_mkcond /= [X in _ <= X](bigD1 k) //=.
have term0 l : 0 <= (if 1 - w l != 0 then (1 - w k) * force_rest w k l / (1 - w l) else 0).
  case: ifP => _ //; rewrite divr_ge0 ?subr_ge0 ?w_le1 // mulr_ge0 ?rest_ge0 //.
  by rewrite subr_ge0 w_le1.
apply: ler_paddl => //; apply: ler_sum => l lk.
case: ifPn => [l1|]; last first.
  rewrite negbK => l1; have := H l; rewrite l1 /= -leNgt => hz.
  have -> // : fm k l <= 0.
  rewrite /fm.
  have : (1 - w k) * force_rest w k l = 0.
    by apply/eqP; rewrite eq_le hz mulr_ge0 ?rest_ge0 // subr_ge0 w_le1.
  move/eqP; rewrite mulf_eq0 => /orP [/eqP ->|/eqP ->]; last by rewrite mul0r.
  by rewrite prob_lt0 ?mulr0 // subr_ge0 w_le1.
have dl : 0 < 1 - w l by rewrite lt_neqAle eq_sym l1 subr_ge0 w_le1.
rewrite /fm [X in _ <= X / _]mulrC -mulrA; apply: ler_pmul; rewrite ?rest_ge0 //.
  by case/andP: (prob_lt_01 (1 - w l) (1 - w k)).
case/orP: (le_total (1 - w k) (1 - w l)) => h.
  by rewrite prob_lt_small // subr_ge0 w_le1.
have /andP [_ p1] := prob_lt_01 (1 - w l) (1 - w k).
by apply: le_trans p1 _; rewrite ler_pdivl_mulr // mul1r.
Qed.

Lemma force_alpha_exact key k :
  w k < force_threshold n \/ w k = 1 -> (forall l, w l <= w k) ->
  force_alpha w k = Pr (index_of (@force_move n) key w k) (fun i => i != k).
Proof.
move=> H mx.
apply/eqP; rewrite eq_le force_alpha_ge andbT.
rewrite /force_alpha.
have [k1|k1] := lt1_or k; last first.
  case: ifPn => [/existsP [i /andP [_]]|_]; first by rewrite k1 subrr mul0r ltxx.
  rewrite big1 => [|i _]; last by rewrite k1 subrr !mul0r.
  rewrite clip_id ?lexx ?ler01 // force_leave; apply: sumr_ge0 => l lk.
  apply: mulr_ge0; first exact: rest_ge0.
  by case/andP: (prob_lt_01 (1 - w l) (1 - w k)).
case: ifPn => [/existsP [i /andP [/eqP i1 _]]|_].
  have := le_lt_trans (mx i) k1; rewrite -subr_gt0 i1 ltxx; by [].
have l1 l : w l < 1 by exact: le_lt_trans (mx l) k1.
have dl l : 1 - w l != 0 by rewrite gt_eqF // subr_gt0.
rewrite (eq_bigl xpredT) // (bigD1 k) //=.
have kt : w k < force_threshold n by case: H => // h; move: k1; rewrite h ltxx.
rewrite {1}/force_rest kt /updR eqxx mul0r mulr0 mul0r add0r.
have -> : \sum_(i | i != k) (1 - w k) * force_rest w k i / (1 - w i)
  = Pr (index_of (@force_move n) key w k) (fun i => i != k).
  rewrite force_leave; apply: eq_bigr => l lk.
  rewrite /fm prob_lt_small ?subr_gt0 //; last by rewrite subr_ge0 w_le1 /= ler_add2l ler_opp2.
  by rewrite [_ * force_rest _ _ _]mulrC mulrA.
rewrite clip_id ?lexx // leave_le1 andbT force_leave; apply: sumr_ge0 => l _.
apply: mulr_ge0; first exact: rest_ge0.
by case/andP: (prob_lt_01 (1 - w l) (1 - w k)).
Qed.

End Force.
