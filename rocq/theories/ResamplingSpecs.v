(** * ResamplingSpecs: the lemmas of ResamplingProofs, KillingProofs and
    MoveProofs repackaged in the form of the property theorems. *)
From Coq Require Import Reals Lra.
From mathcomp Require Import all_ssreflect all_algebra.
From Verif Require Import RInst Prog ProgTheory Resampling Spec ResamplingProofs KillingProofs MoveProofs MoveWitness.

Set Implicit Arguments.
Unset Strict Implicit.
Unset Printing Implicit Defensive.
Import GRing.Theory Num.Theory Order.TTheory.
Local Open Scope ring_scope.

Lemma normalize_spec (n' : nat) (lw : 'I_n'.+1 -> R) :
  [/\ forall i, 0 < normalize lw i,
      \sum_i normalize lw i = 1,
      forall i j, normalize lw i / normalize lw j = exp (lw i) / exp (lw j),
      forall c i, normalize (fun i => lw i + c) i = normalize lw i
    & forall i, normalize_log lw i = ln (normalize lw i)].
Proof.
split; [exact: normalize_gt0 | exact: normalize_sum | exact: normalize_ratio | |].
  by move=> c; exact: normalize_shift.
by move=> i; rewrite /normalize ln_expR.
Qed.

Lemma multinomial_spec (n : nat) (key : key) (w : 'I_n -> R) :
  prob_vec w ->
  (forall i j f, E (multinomial key w i j false) f
     = \sum_(A : {ffun 'I_n -> 'I_n}) (\prod_l w (A l)) * f A)
  /\ conditional_of w (fun A => \prod_l w (A l)) (fun i j => multinomial key w i j true).
Proof.
by move=> pw; split=> [i j f|]; [exact: multinomial_uncond | exact: multinomial_compat].
Qed.

Lemma killing_spec (n' : nat) (key : key) (w : 'I_n'.+1 -> R) :
  prob_vec w ->
  exists rho : {ffun 'I_n'.+1 -> 'I_n'.+1} -> R,
  [/\ prob_vec rho,
      forall i j f, \sum_A rho A * f A
        = n'.+1%:R^-1 * \sum_(s : 'I_n'.+1)
            E (killing key w i j false) (fun A => f [ffun l => A (l - s)])
    & conditional_of w rho (fun i j => killing key w i j true)].
Proof.
move=> pw; exists (rotated_killing_law w); split.
- exact: rotated_killing_law_prob.
- move=> i j f; rewrite /rotated_killing_law.
  rewrite (eq_bigr (fun A => n'.+1%:R^-1 * \sum_(s : 'I_n'.+1) killing_law w (roll A (- s)) * f A)).
    rewrite -mulr_sumr exchange_big; congr (_ * _); apply: eq_bigr => s _.
    rewrite /killing E_bind (killing_idx_law pw) (reindex_inj (h := fun A => roll A s)) /=.
      by apply: eq_bigr => A _; rewrite roll_roll subrr roll0.
    move=> A A' e; have := congr1 (fun B => roll B (- s)) e.
    by rewrite !roll_roll subrr !roll0.
  by move=> A _; rewrite -mulrA mulr_suml.
- exact: killing_compat.
Qed.

Lemma killing_unbiased_spec (n' : nat) (key : key) (w : 'I_n'.+1 -> R) :
  prob_vec w ->
  (forall i j a, E (killing key w i j false)
      (fun A : {ffun 'I_n'.+1 -> 'I_n'.+1} => (#|[set l | A l == a]|)%:R) = n'.+1%:R * w a)
  /\ ((forall l l', w l = w l') -> forall i j,
      almost (fun A : {ffun 'I_n'.+1 -> 'I_n'.+1} => forall l, A l = l) (killing key w i j false)).
Proof.
move=> pw; split=> [i j a|wu i j].
  rewrite -(killing_unbiased pw key i j a); apply: eq_E => A; congr (_%:R).
  rewrite -sum1_card big_mkcond; apply: eq_bigr => l _; rewrite inE; by case: eqP.
apply: almost_imp (killing_uniform key i j pw wu) => A -> l.
by rewrite ffunE.
Qed.

Lemma keep_spec (n' : nat) (key : key) (w : 'I_n'.+1 -> R) (i j : 'I_n'.+1) :
  always (fun A : {ffun 'I_n'.+1 -> 'I_n'.+1} => A j = i) (multinomial key w i j true)
  /\ always (fun A : {ffun 'I_n'.+1 -> 'I_n'.+1} => A j = i) (killing key w i j true).
Proof. by split; [exact: multinomial_keep | exact: killing_keep]. Qed.

Lemma Pr_index_of n (mv : mover n) key w k (e : 'I_n -> bool) :
  Pr (index_of mv key w k) e = Pr (mv key w k) (fun r => e r.1).
Proof. by rewrite /Pr E_index_of. Qed.

Lemma barker_spec (n : nat) (key : key) (w : 'I_n -> R) :
  prob_vec w ->
  [/\ forall k i, Pr (barker_move key w k) (fun r => r.1 == i) = w i,
      forall f, \sum_k w k * E (barker_move key w k) (fun r => f r.1) = \sum_k w k * f k
    & forall k, always (fun r => r.2 = Pr (barker_move key w k) (fun r' => r'.1 != k))
                       (barker_move key w k)].
Proof.
move=> pw; split=> [k i|f|k].
- by rewrite -(barker_law pw key k i) Pr_index_of.
- by rewrite -[RHS](barker_invariant pw key); apply: eq_bigr => k _; rewrite E_index_of.
- apply: always_imp (barker_leave pw key k) => r ->.
  by rewrite (Pr_index_of _ _ _ _ (fun i => i != k)).
Qed.

Lemma below_thr (n : nat) (x : R) :
  x < 1 - exp (- n%:R) \/ x < 1 - 1 / IZR 1000000000000 \/ x = 1 ->
  x < force_threshold n \/ x = 1.
Proof.
case=> [h|[h|]]; [left|left|by right].
  exact: lt_le_trans h (force_threshold_ge' n).
exact: lt_le_trans h (force_threshold_ge n).
Qed.

Lemma force_not_invariant :
  exists (n : nat) (w : 'I_n -> R), prob_vec w /\
  forall key, exists f : 'I_n -> R,
    \sum_k w k * E (force_move key w k) (fun r => f r.1) <> \sum_k w k * f k.
Proof.
exists 2%N, wdeg; split=> [|key]; first exact: wdeg_prob.
exists (fun i => (i == lift ord0 ord0)%:R) => e.
case: (@wdeg_no_mass key); rewrite -[RHS]e.
by apply: eq_bigr => k _; rewrite E_index_of.
Qed.

Lemma force_reversible_spec (n' : nat) (key : key) (w : 'I_n'.+1 -> R) :
  prob_vec w ->
  (forall k, w k < 1 - exp (- n'.+1%:R) \/ w k < 1 - 1 / IZR 1000000000000 \/ w k = 1) ->
  (forall k l, w k * Pr (force_move key w k) (fun r => r.1 == l)
             = w l * Pr (force_move key w l) (fun r => r.1 == k))
  /\ (forall f, \sum_k w k * E (force_move key w k) (fun r => f r.1) = \sum_k w k * f k).
Proof.
move=> pw H; have H' k := below_thr (H k); split=> [k l|f].
  have := force_reversible pw key H' k l.
  by rewrite (Pr_index_of _ _ _ _ (pred1 l)) (Pr_index_of _ _ _ _ (pred1 k)).
by rewrite -[RHS](force_invariant pw key H'); apply: eq_bigr => k _; rewrite E_index_of.
Qed.

Lemma force_bound_spec (n' : nat) (key : key) (w : 'I_n'.+1 -> R)
    (f : 'I_n'.+1 -> R) (c : R) :
  prob_vec w -> (forall k, `|f k| <= c) ->
  `|\sum_k w k * E (force_move key w k) (fun r => f r.1) - \sum_k w k * f k|
    <= 4%:R * c * Num.min (exp (- n'.+1%:R)) (1 / IZR 1000000000000).
Proof.
move=> pw fc.
have := force_quasi_invariant pw key fc.
have -> : 1 - force_threshold n'.+1 = Num.min (exp (- n'.+1%:R)) (1 / IZR 1000000000000).
  rewrite /force_threshold oppr_max addr_minr.
  by rewrite !opprB !addrA ![1 + _]addrC !addrK.
by under eq_bigr do rewrite E_index_of.
Qed.

Lemma force_not_peskun :
  exists (n : nat) (w : 'I_n -> R) (k l : 'I_n), [/\ prob_vec w, k != l &
    forall key, Pr (force_move key w k) (fun r => r.1 == l)
              < Pr (barker_move key w k) (fun r => r.1 == l)].
Proof.
exists 2%N, wdeg, ord0, (lift ord0 ord0); split=> // [|key]; first exact: wdeg_prob.
have := wdeg_not_peskun key; rewrite -{1}(barker_law wdeg_prob key ord0).
by rewrite !(Pr_index_of _ _ _ _ (pred1 (lift ord0 ord0))).
Qed.

Lemma force_peskun_spec (n' : nat) (key : key) (w : 'I_n'.+1 -> R) (k : 'I_n'.+1) :
  prob_vec w ->
  (w k < 1 - exp (- n'.+1%:R) \/ w k < 1 - 1 / IZR 1000000000000 \/ w k = 1) ->
  (forall l, k != l -> Pr (barker_move key w k) (fun r => r.1 == l)
                    <= Pr (force_move key w k) (fun r => r.1 == l))
  /\ Pr (force_move key w k) (fun r => r.1 == k) <= w k.
Proof.
move=> pw /below_thr H; split=> [l kl|].
  have := force_peskun pw key kl H; rewrite -{1}(barker_law pw key k).
  by rewrite !(Pr_index_of _ _ _ _ (pred1 l)).
have := force_stay pw key H.
by rewrite (Pr_index_of _ _ _ _ (pred1 k)).
Qed.

Lemma force_alpha_wrong :
  exists (n : nat) (w : 'I_n -> R) (k : 'I_n), prob_vec w /\
  forall key, always (fun r => r.2 <> Pr (force_move key w k) (fun r' => r'.1 != k))
                     (force_move key w k).
Proof.
exists 3%N, w369, ord0; split=> [|key]; first exact: w369_prob.
apply: always_imp (force_alpha_out w369 key ord0) => r ->.
rewrite w369_alpha => e; have := w369_leave key.
by rewrite (Pr_index_of _ _ _ _ (fun i => i != ord0)) -e ltxx.
Qed.

Lemma force_alpha_spec (n' : nat) (key : key) (w : 'I_n'.+1 -> R) (k : 'I_n'.+1) :
  prob_vec w ->
  always (fun r => Pr (force_move key w k) (fun r' => r'.1 != k) <= r.2 <= 1) (force_move key w k)
  /\ ((w k < 1 - exp (- n'.+1%:R) \/ w k < 1 - 1 / IZR 1000000000000 \/ w k = 1) ->
      (forall l, w l <= w k) ->
      always (fun r => r.2 = Pr (force_move key w k) (fun r' => r'.1 != k)) (force_move key w k)).
Proof.
move=> pw; split=> [|/below_thr H mx].
  apply: always_imp (force_alpha_out w key k) => r ->.
  rewrite -(Pr_index_of _ _ _ _ (fun i => i != k)) force_alpha_ge //=.
  rewrite /force_alpha; case: ifP => // _.
  by rewrite /clip le_minl lexx orbT.
apply: always_imp (force_alpha_out w key k) => r ->.
by rewrite -(Pr_index_of _ _ _ _ (fun i => i != k)); exact: force_alpha_exact.
Qed.

Lemma w369_ok : prob_vec w369 /\ (forall k, w369 k < 1 - 1 / IZR 1000000000000).
Proof.
split=> [|k]; first exact: w369_prob.
by apply: le_lt_trans (w369_lt k) _; toR; lra.
Qed.

Lemma w369_max : forall l, w369 l <= w369 (lift ord0 ord0).
Proof. by move=> l; apply: le_trans (w369_lt l) _; rewrite /w369. Qed.

Lemma deg_ok : prob_vec (fun i : 'I_3 => if i == ord0 then 1 else 0 : R).
Proof.
split=> [i|]; first by case: ifP; rewrite ?lexx ?ler01.
by rewrite (bigD1 ord0) //= big1 ?addr0 // => i /negbTE ->.
Qed.

Lemma unif_ok : prob_vec (fun i : 'I_3 => 1 / 3%:R : R).
Proof.
split=> [i|]; first by rewrite divr_ge0 ?ler01 ?ler0n.
by rewrite big_const_ord iter_addr_0 mul1r -[LHS]mulr_natl divff // pnatr_eq0.
Qed.
