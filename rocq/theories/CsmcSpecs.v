(** * CsmcSpecs: final form of the facts about csmc.py, and example models. *)
From Coq Require Import Reals Lra FunctionalExtensionality.
From mathcomp Require Import all_ssreflect all_algebra.
From Verif Require Import RInst Prog ProgTheory Resampling Spec ResamplingProofs KillingProofs MoveProofs.
From Verif Require Import MoveWitness ResamplingSpecs Csmc CsmcInvariance CsmcProofs KeyProofs.

Set Implicit Arguments.
Unset Strict Implicit.
Unset Printing Implicit Defensive.
Import GRing.Theory Num.Theory Order.TTheory.
Local Open Scope ring_scope.

Section Markov.
Variables (X : finType) (n' : nat) (P Q : Type) (md : model X n' P Q).
Variables (mu0 : X -> R) (mut : X -> P -> X -> R).

(** Independent proposals with the declared densities. *)
Definition markov_model : Prop :=
  [/\ forall key, samples_indep (M0_rvs md key) (fun _ => mu0),
      forall x i, exp (M0_logpdf md x i) = mu0 (x i),
      forall key xm p, samples_indep (Mt_rvs md key xm p) (fun i => mut (xm i) p)
    & forall xm xt p i, exp (Mt_logpdf md xm xt p i) = mut (xm i) p (xt i)].

Hypothesis mk : markov_model.

Lemma markov_init : good_init md.
Proof.
case: mk => s0 l0 st lt key; have := s0 key => s; split; first by case: s.
apply: (indep_step (fun _ => Gamma0 md) s (oner_neq0 _)) => x i.
by rewrite l0 mul1r.
Qed.

Lemma markov_step : good_step md.
Proof.
case: mk => s0 l0 st lt key p q xm; have := st key xm p => s; split; first by case: s.
apply: (indep_step (fun i x => Gammat md (xm i) x q) s (oner_neq0 _)) => x i.
by rewrite lt mul1r.
Qed.

End Markov.

(** ** Example: two states, uniform proposals, [Gamma] arbitrary *)
Section Example.
Variables (n' : nat).
Definition half : R := 1 / 2%:R.
Definition unif_pop (key : key) : prog {ffun 'I_n'.+1 -> bool} :=
  draw key (fun x : {ffun 'I_n'.+1 -> bool} => \prod_i (fun _ => half) (x i)).

Definition ex_model (G0 : bool -> R) (Gt : bool -> bool -> unit -> R) : model bool n' unit unit :=
  Model unif_pop (fun _ _ => ln half) G0 (fun key _ _ => unif_pop key) (fun _ _ _ _ => ln half) Gt.

Lemma half_gt0 : 0 < half. Proof. by rewrite /half; toR; lra. Qed.

Lemma half_prob : prob_vec (fun _ : bool => half).
Proof.
split=> [b|]; first exact: ltW half_gt0.
rewrite big_bool /= /half.
toR; lra.
Qed.

Lemma unif_indep key : samples_indep (unif_pop key) (fun _ _ => half).
Proof.
split=> [|i|f] //; last exact: half_prob.
by apply: proper_draw; apply: (@prod_prob _ _ (fun _ _ => half)) => i; exact: half_prob.
Qed.

Lemma ex_markov G0 Gt : markov_model (ex_model G0 Gt) (fun _ => half) (fun _ _ _ => half).
Proof.
split=> //=; try (by move=> *; exact: unif_indep); by move=> *; rewrite exp_ln //; apply/RltE; exact: half_gt0.
Qed.
End Example.

(** ** C15: the forced move sees the reference index when [backward=False] *)
Definition unit_model : model unit 1 unit unit :=
  Model (fun key => Ret [ffun=> tt]) (fun _ _ => 0) (fun _ => 0)
        (fun key _ _ => Ret [ffun=> tt]) (fun _ _ _ _ => 0) (fun _ _ _ => 0).

Lemma E_kernel1 (X : Type) n' (P Q : Type) (md : model X n' P Q) rs mv key x0 b0 g :
  E (drop_weights (kernel rs mv md key x0 [::] b0 [::] [::] [::] false true)) g
  = E (M0_rvs md (split key 0)) (fun y =>
      E (mv (split key 2) (normalize (log_w0 md (upd y b0 x0))) b0)
        (fun r => g ([:: upd y b0 x0 r.1], [:: r.1]))).
Proof.
rewrite /drop_weights /kernel !E_bind; apply: eq_E => y /=.
by rewrite !E_bind; apply: eq_E => -[B al].
Qed.

Lemma unit_law key b c :
  E (kernel (@multinomial 2) (@force_move 2) unit_model key tt [::] b [::] [::] [::] false false)
    (fun r => (r.1.2 == [:: c])%:R) = (c != b)%:R.
Proof.
rewrite /kernel E_bind [forward_pass _ _ _ _ _ _ _ _ _ _]/= /backward_scanning_pass /=.
set lw := normalize _.
transitivity (E (index_of (@force_move 2) (split key 2) lw b) (fun i => (i == c)%:R)).
  rewrite E_index_of /=; apply: eq_bigr => i _; congr (_ * _); apply: eq_bigr => e _.
  by rewrite /rev /= eqseq_cons andbT.
have lwE i : lw i = half.
  rewrite /lw normalize_normalize normalizeE /= !big_ord_recl big_ord0 /= subr0 exp_0 /half addr0.
  by toR; lra.
have pw : prob_vec lw.
  by split=> [i|]; rewrite ?big_ord_recl ?big_ord0 ?lwE; [exact: ltW half_gt0|rewrite /half; toR; lra].
rewrite E_force // (bigD1 (b + 1)) /=; last by case: b => [[|[|//]] ?].
rewrite big1; last by case: b => [[|[|//]] ?] [[|[|//]] ?].
have -> : fm lw b (b + 1) = 1.
  rewrite /fm /force_rest.
  have -> : lw b < force_threshold 2.
    by apply: lt_le_trans (force_threshold_ge 2); rewrite lwE /half; toR; lra.
  rewrite /updR; have -> : (b + 1 == b) = false by case: b => [[|[|//]] ?].
  rewrite !lwE prob_lt_big.
  - by rewrite /half; toR; field; lra.
  - by rewrite /half; toR; lra.
  - by rewrite lexx.
  - by rewrite /half; toR; lra.
rewrite mul1r addr0 addrC subrK; congr (_%:R).
by case: b => [[|[|//]] ?]; case: c => [[|[|//]] ?].
Qed.

Lemma unconditional_refuted : exists (b b' : 'I_2) f, forall key,
  E (kernel (@multinomial 2) (@force_move 2) unit_model key tt [::] b [::] [::] [::] false false) f
  <> E (kernel (@multinomial 2) (@force_move 2) unit_model key tt [::] b' [::] [::] [::] false false) f.
Proof.
exists ord0, (lift ord0 ord0), (fun r => (r.1.2 == [:: ord0])%:R) => key.
by rewrite !unit_law /=; toR; lra.
Qed.

(** ** C10: with the forced move, invariance is only approximate *)
Section ForceRefuted.
Variables (G0 : bool -> R) (Gt : bool -> bool -> unit -> R).
Local Notation pop2 := {ffun 'I_2 -> bool}.
Local Notation md := (ex_model 1 G0 Gt).

Lemma T1_sum rs mv key (f : seq bool -> seq 'I_2 -> R) :
  traj_sum 0 (fun x0 xs b0 bs => path_target G0 Gt [::] x0 xs *
     E (drop_weights (kernel rs mv md key x0 xs b0 bs [::] [::] false true)) (fun r => f r.1 r.2))
  = \sum_(z : pop2) half * (\sum_j exp (G0 (z j))) *
      (\sum_b normalize (fun j => G0 (z j)) b *
         E (mv (split key 2) (normalize (log_w0 md z)) b) (fun r => f [:: z r.1] [:: r.1])).
Proof.
pose F (b : 'I_2) (z : pop2) := E (mv (split key 2) (normalize (log_w0 md z)) b) (fun r => f [:: z r.1] [:: r.1]).
transitivity (\sum_b \sum_x exp (G0 x) * E (unif_pop 1 (split key 0)) (fun y => F b (upd y b x))).
  rewrite exchange_big; apply: eq_bigr => x0 _; apply: eq_bigr => b0 _.
  rewrite (sum_tuple0 (fun xs => \sum_(bs : 0.-tuple 'I_2) path_target G0 Gt [::] x0 xs *
     E (drop_weights (kernel rs mv md key x0 xs b0 bs [::] [::] false true)) (fun r => f r.1 r.2))).
  rewrite (sum_tuple0 (fun bs => path_target G0 Gt [::] x0 [::] *
     E (drop_weights (kernel rs mv md key x0 [::] b0 bs [::] [::] false true)) (fun r => f r.1 r.2))).
  by rewrite E_kernel1 /path_target [log_path _ _ _ _]/= addr0.
transitivity (\sum_b \sum_(z : pop2) exp (G0 (z b)) * half * F b z).
  apply: eq_bigr => b _.
  have [_ _ Eu] := @unif_indep 1 (split key 0).
  under eq_bigr do rewrite Eu.
  rewrite (@sum_upd_all 2 _ (fun _ _ => half) b (fun x => exp (G0 x)) (F b)); last exact: (proj2 half_prob).
  apply: eq_bigr => z _; congr (_ * _ * _).
  rewrite (eq_bigl (pred1 (b + 1))) ?big_pred1_eq // => i.
  by case: b => [[|[|//]] ?]; case: i => [[|[|//]] ?].
rewrite exchange_big; apply: eq_bigr => z _; rewrite mulr_sumr; apply: eq_bigr => b _.
rewrite !mulrA -/(F b z); congr (_ * _).
have /lt0r_neq0 := @sum_exp_gt0 1 (fun j => G0 (z j)).
rewrite normalizeE; move: (\sum_j _) (exp _) => S e /eqP S0.
by rewrite /half; toR; field.
Qed.

End ForceRefuted.

Definition stay (n : nat) : mover n := fun key w k => Ret (k, 0).

Definition degG (x : bool) : R := ln (if x then 1 - tiny else tiny).
Definition nullG (_ _ : bool) (_ : unit) : R := 0.
Local Notation dmd := (ex_model 1 degG nullG).

Lemma tiny_lt1 : tiny < 1. Proof. by rewrite /tiny; toR; lra. Qed.

Lemma exp_degG x : exp (degG x) = if x then 1 - tiny else tiny.
Proof.
rewrite /degG exp_ln //; apply/RltE; case: x; last exact: tiny_gt0.
by rewrite subr_gt0 tiny_lt1.
Qed.

Lemma deg_lw (z : {ffun 'I_2 -> bool}) : normalize (log_w0 dmd z) = normalize (fun j => degG (z j)).
Proof.
apply: functional_extensionality => i; rewrite normalize_normalize /=.
exact: (@normalize_shift 1 (fun j => degG (z j)) (- ln half) i).
Qed.

Definition zdeg : {ffun 'I_2 -> bool} := [ffun i => i == ord0].

Lemma zdeg_w : normalize (fun j => degG (zdeg j)) = wdeg.
Proof.
apply: functional_extensionality => i; rewrite normalizeE !big_ord_recl big_ord0 !exp_degG !ffunE /= addr0 subrK divr1.
by case: i => [[|[|//]] ?].
Qed.

Definition degf (xs : seq bool) (bs : seq 'I_2) : R :=
  ((xs == [:: false]) && (bs == [:: lift ord0 ord0]))%:R.

Lemma sum_diff1 (I : finType) (z : I) (A B : I -> R) :
  (forall i, i != z -> A i = B i) -> \sum_i A i = \sum_i B i -> A z = B z.
Proof.
move=> H; rewrite (bigD1 z) //= [in RHS](bigD1 z) //= (eq_bigr _ H).
exact: addIr.
Qed.

Lemma force_kernel_refuted : exists (G0 : bool -> R) (Gt : bool -> bool -> unit -> R), forall key,
  ~ leaves_invariant 0 (path_target G0 Gt [::])
      (fun x0 xs b0 bs => drop_weights
         (kernel (@multinomial 2) (@force_move 2) (ex_model 1 G0 Gt) key x0 xs b0 bs [::] [::] false true)).
Proof.
exists degG, nullG => key inv.
have := inv degf; rewrite T1_sum.
have -> : traj_sum 0 (fun x0 xs (b0 : 'I_2) bs => path_target degG nullG [::] x0 xs * degf (x0 :: xs) (b0 :: bs))
  = traj_sum 0 (fun x0 xs b0 bs => path_target degG nullG [::] x0 xs *
     E (drop_weights (kernel (@multinomial 2) (@stay 2) dmd key x0 xs b0 bs [::] [::] false true)) (fun r => degf r.1 r.2)).
  apply: eq_bigr => x0 _; apply: eq_bigr => b0 _; apply: eq_bigr => xs _; apply: eq_bigr => bs _.
  rewrite (tuple0 xs) (tuple0 bs); congr (_ * _).
  have [pu _ _] := @unif_indep 1 (split key 0).
  rewrite E_kernel1 -[LHS](E_const _ pu); apply: eq_E => y /=.
  by rewrite upd_same.
rewrite T1_sum => /(@sum_diff1 _ zdeg) e; have {}e := e _.
rewrite !deg_lw zdeg_w in e.
suff e' : \sum_b wdeg b * E (@force_move 2 (split key 2) wdeg b) (fun r => degf [:: zdeg r.1] [:: r.1])
   = \sum_b wdeg b * E (@stay 2 (split key 2) wdeg b) (fun r => degf [:: zdeg r.1] [:: r.1]).
  case: (@wdeg_no_mass (split key 2)); etransitivity; last (etransitivity; first apply: e').
  - apply: eq_bigr => k _; rewrite E_index_of; congr (_ * _); apply: eq_E => -[i al] /=.
    by rewrite /degf; case: i => [[|[|//]] h]; rewrite /zdeg ffunE.
  - apply: eq_bigr => k _; congr (_ * _) => /=.
    by rewrite /degf; case: k => [[|[|//]] h]; rewrite /zdeg ffunE.
apply: (@mulfI _ (half * \sum_j exp (degG (zdeg j)))).
  apply: mulf_neq0; apply: lt0r_neq0; first exact: half_gt0.
  by rewrite !big_ord_recl big_ord0 !exp_degG !ffunE /= addr0 subrK ltr01.
apply: e => z zn; rewrite !deg_lw.
congr (_ * _).
have [e1|e1] := boolP (z (lift ord0 ord0)).
    have d0 i : degf [:: z i] [:: i] = 0.
      rewrite /degf; case: eqP => // -[ez]; case: eqP => // -[ei].
      by move: ez; rewrite ei e1.
    have Em m : E m (fun r : 'I_2 * R => degf [:: z r.1] [:: r.1]) = 0.
      by rewrite -[RHS](E0 m); apply: eq_E => r; exact: d0.
    by rewrite !big1 // => b _; rewrite Em mulr0.
  have e0 : z ord0 = false.
    apply: contraNF zn => e0; apply/eqP/ffunP => i; rewrite ffunE.
    case: i => [[|[|//]] h] /=.
      by transitivity (z ord0); [congr (z _); apply: val_inj|].
    by transitivity (z (lift ord0 ord0)); [congr (z _); apply: val_inj|exact: negbTE].
  have ez i : z i = false.
    case: i => [[|[|//]] h]; [rewrite -[RHS]e0|rewrite -[RHS](negbTE e1)]; congr (z _); exact: val_inj.
  have pw := @normalize_prob 1 (fun j => degG (z j)).
  have wE i : normalize (fun j => degG (z j)) i = half.
    rewrite normalizeE !big_ord_recl big_ord0 !ez addr0 /half.
    have := expR_gt0 (degG false); move: (exp _) => e ep; toR; field; lra.
  have thr k : normalize (fun j => degG (z j)) k < 1 - exp (- 2%:R) \/
      normalize (fun j => degG (z j)) k < 1 - 1 / IZR 1000000000000 \/ normalize (fun j => degG (z j)) k = 1.
    by right; left; rewrite wE /half; toR; lra.
  have [_ inv2] := @force_reversible_spec 1 (split key 2) _ pw thr.
  exact: (inv2 (fun i => degf [:: z i] [:: i])).
Qed.
