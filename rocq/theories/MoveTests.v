(** * MoveTests: the laws that the tests of utils/common.py:81-156 and t_atp_csmc_f.py:327-344 sample (C82). *)
From Coq Require Import Reals Lra.
From mathcomp Require Import all_ssreflect all_algebra.
From Verif Require Import RInst Prog ProgTheory Resampling Spec ResamplingProofs MoveProofs ResamplingSpecs Kalman Twisted.

Set Implicit Arguments.
Unset Strict Implicit.
Unset Printing Implicit Defensive.
Import GRing.Theory Num.Theory Order.TTheory.
Local Open Scope ring_scope.

Definition guard n (v : R) := v < 1 - exp (- n%:R) \/ v < 1 - 1 / IZR 1000000000000 \/ v = 1.

Lemma small_guard n v : v <= 1 / 2%:R -> guard n v.
Proof. by move=> h; right; left; apply: le_lt_trans h _; toR; lra. Qed.

Lemma guard_threshold n v : guard n v -> v < force_threshold n \/ v = 1.
Proof.
case=> [h|[h|h]]; [left; exact: lt_le_trans h (force_threshold_ge' n)|left; exact: lt_le_trans h (force_threshold_ge n)|by right].
Qed.

Section Laws.
Variables (n' : nat) (key : key) (w : 'I_n'.+1 -> R).
Hypothesis pw : prob_vec w.

Lemma force_to k l : k != l -> guard n'.+1 (w k) -> Pr (force_move key w k) (fun r => r.1 == l) = ideal w k l.
Proof.
move=> kl g; rewrite -fm_ideal //; last exact: guard_threshold.
by rewrite -(force_law pw key kl) /Pr E_index_of.
Qed.

Lemma force_out k : Pr (force_move key w k) (fun r => r.1 != k) = \sum_(l | l != k) Pr (force_move key w k) (fun r => r.1 == l).
Proof.
have := force_leave pw key k; rewrite {1}/Pr E_index_of -/(Pr (force_move key w k) (fun r => r.1 != k)) => ->.
by apply: eq_bigr => l lk; rewrite -(force_law pw key) 1?eq_sym // /Pr E_index_of.
Qed.

Lemma force_stay k : Pr (force_move key w k) (fun r => r.1 == k) = 1 - Pr (force_move key w k) (fun r => r.1 != k).
Proof.
have h f : E (force_move key w k) (fun r => f r.1) = _ := esym (E_index_of (@force_move n'.+1) key w k f).
rewrite /Pr (h (fun i => (i == k)%:R)) (h (fun i => (i != k)%:R)) !(E_force pw) eqxx add0r; congr (1 + _).
by rewrite -sumrN; apply: eq_bigr => l lk; rewrite (negbTE lk) /= sub0r mulrN1 subr0 mulr1.
Qed.

Lemma force_alpha_is k v : Pr (force_move key w k) (fun r => r.1 != k) = v ->
  v = 1 \/ (guard n'.+1 (w k) /\ forall l, w l <= w k) -> always (fun r => r.2 = v) (force_move key w k).
Proof.
have [h1 h2] := force_alpha_spec key k pw.
move=> e [v1|[g mx]]; last by have := h2 g mx; rewrite e.
apply: always_imp h1 => r; rewrite e v1 => h; apply/eqP; rewrite eq_le andbC; exact: h.
Qed.
End Laws.

Lemma barker_to n key (w : 'I_n -> R) k l : prob_vec w -> Pr (barker_move key w k) (fun r => r.1 == l) = w l.
Proof. by move=> pw; rewrite -(barker_law pw key k l) /Pr E_index_of. Qed.

(** ** common.py:81-99: equal weights *)
Section Uniform.
Variables (m : nat) (key : key) (k : 'I_m.+2).
Local Notation n := m.+2.
Local Notation w := (fun _ : 'I_n => 1 / n%:R).

Lemma uniform_prob : prob_vec w.
Proof.
split=> [i|]; first by rewrite mul1r invr_ge0 ler0n.
by rewrite big_const_ord iter_addr_0 mul1r -[LHS]mulr_natl divff // pnatr_eq0.
Qed.

Let guarded : guard n (1 / n%:R).
Proof. by apply: small_guard; rewrite ler_pmul2l ?ltr01 // lef_pinv ?posrE ?ltr0n // ler_nat. Qed.

Let lt1 : 1 / n%:R < 1 :> R.
Proof. by rewrite mul1r invf_lt1 ?ltr0n // ltr1n. Qed.

Let rest : 1 - 1 / n%:R = m.+1%:R / n%:R :> R.
Proof.
have n0 : n%:R != 0 :> R by rewrite pnatr_eq0.
by apply: (mulIf n0); rewrite mulrBl !divfK // mul1r -[n]addn1 natrD addrK.
Qed.

Let to l : k != l -> Pr (force_move key w k) (fun r => r.1 == l) = 1 / m.+1%:R.
Proof.
move=> kl; rewrite (force_to key uniform_prob kl guarded) ideal_le // ?uniform_prob //.
  by rewrite rest invf_div mulrA mulfVK ?pnatr_eq0.
exact: uniform_prob.
Qed.

Let out : Pr (force_move key w k) (fun r => r.1 != k) = 1.
Proof.
rewrite (force_out key uniform_prob) (eq_bigr (fun=> 1 / m.+1%:R)); last by move=> l lk; apply: to; rewrite eq_sym.
rewrite sumr_const (_ : #|_| = m.+1); first by rewrite mul1r -[LHS]mulr_natl divff // pnatr_eq0.
have := cardC1 k; rewrite card_ord /= => e; rewrite -[RHS]e; apply: eq_card => i; by rewrite !inE.
Qed.

Lemma uniform_test :
  [/\ forall l, Pr (force_move key w k) (fun r => r.1 == l) = if l == k then 0 else 1 / m.+1%:R,
      always (fun r => r.2 = 1) (force_move key w k),
      forall l, Pr (barker_move key w k) (fun r => r.1 == l) = 1 / n%:R &
      always (fun r => r.2 = m.+1%:R / n%:R) (barker_move key w k)].
Proof.
split.
- move=> l; case: eqP => [->|/eqP lk]; last by apply: to; rewrite eq_sym.
  by rewrite (force_stay key uniform_prob) out subrr.
- by apply: (force_alpha_is uniform_prob out); left.
- by move=> l; rewrite barker_to //; exact: uniform_prob.
by move=> i /=; exact: rest.
Qed.
End Uniform.

(** ** common.py:101-125: all the weight on one index *)
Section Degenerate.
Variables (m : nat) (key : key) (a k : 'I_m.+1).
Local Notation w := (fun i : 'I_m.+1 => (i == a)%:R : R).

Lemma degenerate_prob : prob_vec w.
Proof. by split=> [i|]; rewrite ?ler0n // (bigD1 a) //= eqxx big1 ?addr0 // => i /negbTE ->. Qed.

Let guarded i : guard m.+1 ((i == a)%:R).
Proof. by case: eqP => _; [right; right|apply: small_guard; rewrite divr_ge0 ?ler0n ?ler01]. Qed.

Let to l : k != l -> Pr (force_move key w k) (fun r => r.1 == l) = ((k != a) && (l == a))%:R.
Proof.
move=> kl; rewrite (force_to key degenerate_prob kl (guarded k)) /ideal.
case: (eqVneq k a) => [_|ka]; first by rewrite ltxx.
rewrite ltr01 subr0 divr1; case: (eqVneq l a) => [_|la]; last by rewrite mul0r.
by rewrite mul1r subrr /prob_lt ltxx eqxx ltr01.
Qed.

Let out : Pr (force_move key w k) (fun r => r.1 != k) = (k != a)%:R.
Proof.
rewrite (force_out key degenerate_prob) (eq_bigr (fun l => ((k != a) && (l == a))%:R)); last by move=> l lk; apply: to; rewrite eq_sym.
case: (eqVneq k a) => [_|ka] /=; first by rewrite big1.
by rewrite (bigD1 a) 1?eq_sym //= eqxx big1 ?addr0 // => i /andP[_ /negbTE ->].
Qed.

Lemma degenerate_test :
  [/\ Pr (force_move key w k) (fun r => r.1 == a) = 1, always (fun r => r.2 = (k != a)%:R) (force_move key w k),
      Pr (barker_move key w k) (fun r => r.1 == a) = 1 & always (fun r => r.2 = (k != a)%:R) (barker_move key w k)].
Proof.
split.
- case: (eqVneq k a) => ka; last by rewrite to // ka eqxx.
  by have := force_stay key degenerate_prob k; rewrite out ka eqxx subr0.
- apply: (force_alpha_is degenerate_prob out); case: (eqVneq k a) => ka; [right|by left].
  by split=> [|l]; [right; right|case: eqP; rewrite ?ler01].
- by rewrite barker_to ?eqxx //; exact: degenerate_prob.
by move=> i /=; case: eqP => _; rewrite ?subrr ?subr0.
Qed.
End Degenerate.

(** ** common.py:128-156: two weights *)
Section Two.
Variables (key : key) (w : 'I_2 -> R) (k l : 'I_2).
Hypotheses (pw : prob_vec w) (kl : k != l) (g : guard 2 (w k)) (k0 : 0 < w k) (k1 : w k < 1).

Let only i : i != k -> i = l.
Proof. by move=> ik; apply/val_inj; move: k l i kl ik => [[|[|k']] //] ? [[|[|l']] //] ? [[|[|i']] //] ?. Qed.

Let sum2 : w l = 1 - w k.
Proof. by rewrite -(w_others pw k) (bigD1 l) 1?eq_sym //= big1 ?addr0 // => i /andP[/only -> /eqP]. Qed.

Let to : Pr (force_move key w k) (fun r => r.1 == l) = Num.min 1 ((1 - w k) / w k).
Proof.
rewrite (force_to key pw kl g) /ideal k1 sum2 divff ?subr_eq0 1?eq_sym ?lt_eqF // mul1r opprB addrCA subrr addr0.
have h : 0 < 1 - w k by rewrite subr_gt0.
case/orP: (le_total (w k) (1 - w k)) => c.
  by rewrite (prob_lt_big (ltW k0) c h) min_l // ler_pdivl_mulr // mul1r.
by rewrite prob_lt_small ?c ?(ltW h) // min_r // ler_pdivr_mulr // mul1r.
Qed.

Let out : Pr (force_move key w k) (fun r => r.1 != k) = Num.min 1 ((1 - w k) / w k).
Proof. by rewrite (force_out key pw) (bigD1 l) 1?eq_sym //= to big1 ?addr0 // => i /andP[/only -> /eqP]. Qed.

Lemma two_test :
  [/\ Pr (force_move key w k) (fun r => r.1 == l) = Num.min 1 ((1 - w k) / w k),
      always (fun r => r.2 = Num.min 1 ((1 - w k) / w k)) (force_move key w k),
      Pr (barker_move key w k) (fun r => r.1 == l) = w l & always (fun r => r.2 = w l) (barker_move key w k)].
Proof.
split; [exact: to| |exact: barker_to|by move=> i /=; rewrite sum2].
apply: (force_alpha_is pw out); case/orP: (le_total (w k) (1 - w k)) => c.
  by left; rewrite min_l // ler_pdivl_mulr // mul1r.
by right; split=> // i; case: (eqVneq i k) => [->//|/only ->]; rewrite sum2.
Qed.
End Two.

(** ** t_atp_csmc_f.py:327-344: stationary dynamics *)
Lemma reversed_test (d T : nat) (F : 'M[R]_d) : F^T = F ->
  let f := Dyn F (1%:M - F *m F) 0 in
  get_reversed_dynamics (0, 1%:M) (nseq T f) = ((0, 1%:M), nseq T f).
Proof.
move=> sF f; have b : reversed_body (0, 1%:M) f = ((0, 1%:M), f).
  have half (A : 'M[R]_d) : A^T = A -> (1 / 2%:R) *: (A + A^T) = A.
    by move=> ->; rewrite -mulr2n -scaler_nat scalerA mul1r mulVf ?scale1r // pnatr_eq0.
  have K : get_gain F (1%:M - F *m F) 1%:M = F.
    by rewrite /get_gain sF mulmx1 mul1mx addrC subrK invmx1 mul1mx sF.
  have tQ : (1%:M - F *m F)^T = 1%:M - F *m F by rewrite linearB /= trmx1 trmx_mul sF.
  rewrite /reversed_body /f K !mulmx0 !addr0 !subr0 mulmx0 sF !mulmx1 [F *m F + _]addrC subrK.
  by rewrite (half _ tQ) (half _ (trmx1 _ _)) subr0.
elim: T => // T IH; rewrite -[nseq T.+1 f]/(f :: nseq T f) -[LHS]/(let: (carry, r) := reversed_body (0, 1%:M) f in
  let: (final, rs) := get_reversed_dynamics carry (nseq T f) in (final, r :: rs)).
by rewrite b IH.
Qed.

Lemma two_test' (key : key) (w : 'I_2 -> R) (k l : 'I_2) : prob_vec w -> k != l -> 0 < w k ->
  w k < 1 - 1 / IZR 1000000000000 ->
  [/\ Pr (force_move key w k) (fun r => r.1 == l) = Num.min 1 ((1 - w k) / w k),
      always (fun r => r.2 = Num.min 1 ((1 - w k) / w k)) (force_move key w k),
      Pr (barker_move key w k) (fun r => r.1 == l) = w l & always (fun r => r.2 = w l) (barker_move key w k)].
Proof.
move=> pw kl k0 h; apply: two_test => //; first by right; left.
by apply: lt_trans h _; toR; lra.
Qed.

Lemma two_numbers (w : 'I_2 -> R) : w 0 = 1 / 10%:R -> w 1 = 9%:R / 10%:R ->
  [/\ prob_vec w, 0 < w 0 < 1 - 1 / IZR 1000000000000, 0 < w 1 < 1 - 1 / IZR 1000000000000,
      Num.min 1 ((1 - w 0) / w 0) = 1 & Num.min 1 ((1 - w 1) / w 1) = 1 / 9%:R].
Proof.
move=> e0 e1.
have p : prob_vec w.
  split; last by rewrite big_ord_recl big_ord1 (_ : lift ord0 ord0 = 1) ?e0 ?e1; [toR; lra|apply/val_inj].
  move=> i; have [->|->] : i = 0 \/ i = 1.
    by case: i => [[|[|i]] //] hi; [left|right]; apply/val_inj.
    by rewrite e0; toR; lra.
  by rewrite e1; toR; lra.
have a0 : (1 - 1 / 10%:R) / (1 / 10%:R) = 9%:R :> R by toR; field.
have a1 : (1 - 9%:R / 10%:R) / (9%:R / 10%:R) = 1 / 9%:R :> R by toR; field.
split=> //.
- by rewrite e0; apply/andP; split; toR; lra.
- by rewrite e1; apply/andP; split; toR; lra.
- by rewrite e0 a0 min_l // ler1n.
by rewrite e1 a1 min_r // ler_pdivr_mulr ?ltr0n // mul1r ler1n.
Qed.
