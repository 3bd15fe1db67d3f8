(** * SingleFinal: final form of the facts stated in PropsSingle, witnesses and examples. *)
From Coq Require Import Reals Lra FunctionalExtensionality.
From mathcomp Require Import all_ssreflect all_algebra fingroup perm.
From Verif Require Import RInst Prog ProgTheory Resampling Spec ResamplingProofs MoveProofs MoveWitness.
From Verif Require Import CsmcInvariance KeyProofs CsmcSpecs AuxCsmc AuxFinal Gauss GaussSpec GaussProofs.
From Verif Require Import Single SingleSpec SingleProofs.

Set Implicit Arguments.
Unset Strict Implicit.
Unset Printing Implicit Defensive.
Import GRing.Theory Num.Theory Order.TTheory.
Local Open Scope ring_scope.

(** ** The moves of the code *)
Lemma barker_rel n : relabels (@barker_move n).
Proof. by move=> *; apply: barker_relabels. Qed.
Lemma force_rel n : relabels (@force_move n).
Proof. by move=> *; apply: force_relabels. Qed.
Lemma barker_rev n : reversible_mover (@barker_move n).
Proof.
move=> key w k l pw; have H i j : Pr (barker_move key w i) (fun r => r.1 == j) = w j.
  by rewrite -(barker_law pw key i j) /Pr E_index_of.
by rewrite !H mulrC.
Qed.

(** ** The forced move between two particles *)
Section Two.
Variables (w : 'I_2 -> R) (key : key).
Hypothesis pw : prob_vec w.
Hypothesis w0 : 0 < w ord0.
Local Notation one := (lift ord0 ord0 : 'I_2).

Lemma two_sum : w ord0 + w one = 1.
Proof. by have := proj2 pw; rewrite !big_ord_recl big_ord0 addr0. Qed.

Lemma thr2 : force_threshold 2 = 1 - 1 / IZR 1000000000000.
Proof.
rewrite /force_threshold max_r // ler_add2l ler_opp2 expRN.
have e2 : exp 2%:R <= IZR 9.
  rewrite (_ : 2%:R = 1 + 1) // expRD; toR.
  by have := exp_le_3; have := exp_pos 1%coqR; nra.
have e2' : (IZR 9)^-1 <= (exp 2%:R)^-1.
  by rewrite lef_pinv // posrE ?expR_gt0 //; toR; lra.
by apply: le_trans e2'; toR; lra.
Qed.

Lemma force_two f : E (force_move key w ord0) (fun r => f r.1)
  = guarded_mh (w one / w ord0) * f one + (1 - guarded_mh (w one / w ord0)) * f ord0.
Proof.
rewrite -[LHS](E_index_of (@force_move 2)) E_force // big_mkcond /= !big_ord_recl !big_ord0 /= add0r addr0.
suff -> : fm w ord0 one = guarded_mh (w one / w ord0) by Rring.
have s := two_sum; have w1 : 0 <= w one by exact: (proj1 pw).
have e1 : 1 - w ord0 = w one by rewrite -s; Rring.
have e2 : 1 - w one = w ord0 by rewrite -s; Rring.
rewrite /fm /force_rest e1 e2 thr2 /guarded_mh.
have -> : (w ord0 < 1 - 1 / IZR 1000000000000) = (1 / IZR 999999999999 < w one / w ord0).
  rewrite ltr_pdivl_mulr // -e2; move: (w one) => b.
  by apply/idP/idP => /RltE h; apply/RltE; move: h; toR; lra.
case: ifP => h.
  rewrite /updR /=.
  have w1' : w one != 0 by apply/eqP => e; move: h; rewrite e mul0r; toR; lra.
  rewrite divff // mul1r.
  have [le|lt] := leP (w ord0) (w one).
    rewrite prob_lt_big ?(ltW w0) //; last by rewrite lt0r w1' w1.
    by rewrite min_l // ler_pdivl_mulr // mul1r.
  rewrite prob_lt_small // ?w1 ?(ltW lt) // min_r // ler_pdivr_mulr // mul1r ltW //.
rewrite prob_lt_small //; first by rewrite mul1r mulrC.
rewrite w1 /=; move: h; rewrite ltr_pdivl_mulr // => /negbT; rewrite -leNgt -e2.
by move=> /RleE h; apply/RleE; move: h; toR; lra.
Qed.
End Two.

(** ** One proposal: the Metropolis-Hastings ratio *)
Section MH.
Variables (X U : finType) (K : X -> prog X) (kc : key).
Local Notation pop := {ffun 'I_2 -> X}.
Variables (L : X -> U -> {ffun 'I_1 -> X} -> R) (A W : U -> pop -> 'I_2 -> R) (S : U -> pop -> R).
Hypothesis KE : forall x f, E (K x) f
  = \sum_u \sum_y L x u y * E (force_move kc (normalize (W u (front x y))) ord0) (fun r => f (front x y r.1)).
Hypothesis AW : forall u x i, A u x i = S u x * exp (W u x i).

Definition ff1 (y : X) : {ffun 'I_1 -> X} := [ffun=> y].
Lemma sum_ff1 (F : {ffun 'I_1 -> X} -> R) : \sum_y F y = \sum_y F (ff1 y).
Proof.
rewrite (reindex ff1) //; exists (fun y : {ffun 'I_1 -> X} => y ord0) => y _; first by rewrite ffunE.
by apply/ffunP => i; rewrite ffunE (ord1 i).
Qed.

Lemma mh_law x f : (forall u y, L x u (ff1 y) != 0 -> A u (front x (ff1 y)) ord0 != 0) ->
  E (K x) f = \sum_u \sum_y L x u (ff1 y) *
    (let g := guarded_mh (A u (front x (ff1 y)) (lift ord0 ord0) / A u (front x (ff1 y)) ord0) in
     g * f y + (1 - g) * f x).
Proof.
move=> A0; rewrite KE; apply: eq_bigr => u _; rewrite sum_ff1; apply: eq_bigr => y _.
have [->|L0] := eqVneq (L x u (ff1 y)) 0; first by rewrite !mul0r.
congr (_ * _); rewrite (@force_two _ _ _ _ (fun r => f (front x (ff1 y) r))); first last.
- by rewrite normalizeE divr_gt0 ?expR_gt0 ?sum_exp_gt0.
- exact: normalize_prob.
rewrite front0 frontS ffunE /=.
have -> : normalize (W u (front x (ff1 y))) (lift ord0 ord0) / normalize (W u (front x (ff1 y))) ord0
       = A u (front x (ff1 y)) (lift ord0 ord0) / A u (front x (ff1 y)) ord0; last by [].
have := A0 u y L0; rewrite !AW !normalizeE.
have := sum_exp_gt0 (W u (front x (ff1 y))); move: (\sum_i _) => s s0.
rewrite mulf_eq0 negb_or => /andP[S0 e0].
by rewrite -!mulf_div !divff ?mulr1 ?mul1r // invr_eq0 lt0r_neq0.
Qed.
End MH.

Section Kernels.
Variables (X : finZmodType).
Local Notation pop := {ffun 'I_2 -> X}.
Variables (log_pdf : X -> R) (grad : X -> X) (noise ld : X -> R) (scale : X -> X).
Variable log_H : pop -> X -> X -> R.
Hypothesis noiseP : prob_vec noise.
Local Notation mala := (fun key aux x => at_pos (mala_kernel log_pdf grad noise ld scale log_H (@force_move 2) key aux (tp1_init log_pdf grad x))).
Local Notation phi x := (scale (grad x)).

Lemma prod_ff1 (g : X -> R) (y : X) : \prod_j g (ff1 y j) = g y.
Proof. by rewrite big_ord_recl big_ord0 mulr1 ffunE. Qed.

Lemma prod_front1 (g : X -> R) x y : \prod_(j | j != lift ord0 ord0) g (front x (ff1 y) j) = g x.
Proof. by rewrite big_mkcond !big_ord_recl big_ord0 /= front0 !mulr1. Qed.

Lemma mala_aux_mh key x f :
  (forall z, noise (- z) = noise z) -> (exists c, c != 0 /\ forall z, exp (ld z) = c * noise z) ->
  E (mala key true x) f = \sum_u \sum_y noise (u - (x + phi x)) * noise (y - u) *
    (let g := guarded_mh ((exp (log_pdf y) * noise (u - (y + phi y)) * noise (x - u))
                        / (exp (log_pdf x) * noise (u - (x + phi x)) * noise (y - u))) in
     g * f y + (1 - g) * f x).
Proof.
move=> ev ldE; rewrite (mh_law (mala_law log_pdf grad noise ld scale log_H _ key true) (mAW log_pdf grad scale log_H ev ldE)).
  apply: eq_bigr => u _; apply: eq_bigr => y _.
  by rewrite /mL /mA (prod_ff1 (fun z => noise (z - u))) front0 frontS ffunE (prod_front1 (fun z => noise (z - u)))
     (prod_front (fun z => noise (z - u))) (prod_ff1 (fun z => noise (z - u))).
move=> u y; rewrite mAL => h; apply: mulf_neq0 => //; exact: expR_neq0.
Qed.

Lemma mala_marg_mh key x f :
  (exists S : pop -> R, forall (x : pop) b phi,
    \sum_u noise (u - (x b + phi)) * \prod_(i | i != b) noise (x i - u) = S x * exp (log_H x (x b) phi)) ->
  E (mala key false x) f = \sum_y (\sum_u noise (u - (x + phi x)) * noise (y - u)) *
    (let g := guarded_mh (exp (log_pdf y) * (\sum_u noise (u - (y + phi y)) * noise (x - u))
                        / (exp (log_pdf x) * (\sum_u noise (u - (x + phi x)) * noise (y - u)))) in
     g * f y + (1 - g) * f x).
Proof.
move=> lH; have [S [S0 H]] := nAW log_pdf grad ld scale noiseP lH.
rewrite (mh_law (mala_marg_law log_pdf grad noise ld scale log_H _ key) H).
  rewrite sum_unit; apply: eq_bigr => y _.
  rewrite nAL /nL /nA mulr_sumr /=; congr (_ * _).
    by apply: eq_bigr => u _; rewrite /mL (prod_ff1 (fun z => noise (z - u))).
  congr (guarded_mh _ * _ + (1 - guarded_mh _) * _).
    congr (_ / (_ * _)); apply: eq_bigr => u _.
      by rewrite /mA frontS ffunE (prod_front1 (fun z => noise (z - u))) mulrA.
    by rewrite /mL (prod_ff1 (fun z => noise (z - u))).
  congr (_ / (_ * _)); apply: eq_bigr => u _.
    by rewrite /mA frontS ffunE (prod_front1 (fun z => noise (z - u))) mulrA.
  by rewrite /mL (prod_ff1 (fun z => noise (z - u))).
move=> u y; rewrite nAL => h; apply: mulf_neq0 => //; exact: expR_neq0.
Qed.

Section Tp1.
Variables (corr : X -> X -> X -> R) (post_sampling : key -> X -> prog {ffun 'I_1 -> X}).
Variables (prior : X -> R) (post : X -> X -> R).
Hypothesis postS : forall key u, samples_indep (post_sampling key u) (fun _ => post u).
Hypothesis postP : forall u, prob_vec (post u).
Hypothesis postE : forall u, exists Z, forall x, prior x * noise (u - x) = Z * post u x.
Hypothesis corrE : forall u x g, noise (u - x) * exp (corr u x g) = noise (u - (x + scale g)).

Lemma tp1_mh key x f : prior x != 0 ->
  E (at_pos (tp1_kernel log_pdf grad noise scale (@force_move 2) corr post_sampling key (tp1_init log_pdf grad x))) f
  = \sum_u \sum_y noise (u - (x + phi x)) * post u y *
    (let g := guarded_mh ((prior y * exp (log_pdf y) * noise (u - (y + phi y)) * post u x)
                        / (prior x * exp (log_pdf x) * noise (u - (x + phi x)) * post u y)) in
     g * f y + (1 - g) * f x).
Proof.
move=> p0; rewrite (mh_law (tp1_law log_pdf grad noise scale _ corr postS key) (tAW log_pdf grad postP postE corrE)).
  apply: eq_bigr => u _; apply: eq_bigr => y _.
  by rewrite /tL /tA (prod_ff1 (post u)) front0 frontS ffunE (prod_front1 (post u)) (prod_front (post u)) (prod_ff1 (post u)).
move=> u y; rewrite tAL => h; apply: mulf_neq0 => //; apply: mulf_neq0 => //; exact: expR_neq0.
Qed.
End Tp1.
End Kernels.

Lemma imh_mh (X : finType) (log_pdf : X -> R) prior_sampling (prior : X -> R) key x f :
  (forall key, samples_indep (prior_sampling key) (fun _ => prior)) ->
  E (do r <- imh_kernel log_pdf prior_sampling (@force_move 2) key (imh_init log_pdf x); Ret r.1.1) f
  = \sum_y prior y * (let g := guarded_mh (exp (log_pdf y) / exp (log_pdf x)) in g * f y + (1 - g) * f x).
Proof.
move=> ps; pose K x := do r <- imh_kernel log_pdf prior_sampling (@force_move 2) key (imh_init log_pdf x); Ret r.1.1.
rewrite (@mh_law X unit_finType K (split key 1) (iL prior) (fun _ z i => exp (log_pdf (z i))) (@iW X 1 log_pdf) (fun _ _ => 1)).
- rewrite sum_unit; apply: eq_bigr => y _.
  by rewrite /iL big_ord_recl big_ord0 mulr1 front0 frontS !ffunE.
- by move=> {}x {}f; exact: (imh_law log_pdf _ ps).
- by move=> u z i; rewrite mul1r.
- by move=> u y _; exact: expR_neq0.
Qed.

(** ** Cached values *)
Section Coherent.
Variables (X : finZmodType) (log_pdf : X -> R) (grad : X -> X).
Local Notation state := (X * R * X)%type.
Definition coherent (st : state) : Prop := st.1.2 = log_pdf st.1.1 /\ st.2 = grad st.1.1.

Definition step_ok (st : state) (r : state * bool) : Prop := coherent r.1 /\ (r.2 = false -> r.1 = st).

Lemma select_ok N (mv : mover N.+1) key lw (st : state) (y : 'I_N -> X) : coherent st ->
  always (step_ok st) (select mv key lw (fun i =>
    ([ffun i => insert0 st.1.1 y i] i, insert0 st.1.2 (fun j => log_pdf (y j)) i,
     [ffun i => insert0 st.2 (fun j => grad (y j)) i] i))).
Proof.
move=> [c1 c2]; apply/always_bind; apply: always_true => -[i a] /=; split => /=.
  by split; rewrite /= !ffunE /insert0; case: unlift.
move/negbFE/eqP ->; rewrite !ffunE /insert0 unlift_none; by case: (st) => [[]].
Qed.

Lemma mala_ok N noise ld scale log_H (mv : mover N.+1) key aux st : coherent st ->
  always (step_ok st) (mala_kernel log_pdf grad noise ld scale log_H mv key aux st).
Proof.
move=> c; apply/always_bind; apply: always_true => e; apply/always_bind; apply: always_true => eps.
exact: (@select_ok N mv _ _ st (fun j => st.1.1 + scale st.2 + e + eps j)).
Qed.

Lemma tp1_ok N noise scale (mv : mover N.+1) corr ps key st : coherent st ->
  always (step_ok st) (tp1_kernel log_pdf grad noise scale mv corr ps key st).
Proof.
move=> c; apply/always_bind; apply: always_true => e; apply/always_bind; apply: always_true => y.
exact: (@select_ok N mv _ _ st y).
Qed.
End Coherent.

Lemma imh_ok (X : finType) (log_pdf : X -> R) N ps (mv : mover N.+1) key st : st.2 = log_pdf st.1 ->
  always (fun r => r.1.2 = log_pdf r.1.1 /\ (r.2 = false -> r.1 = st)) (imh_kernel log_pdf ps mv key st).
Proof.
move=> c; apply/always_bind; apply: always_true => y; apply/always_bind; apply: always_true => -[i a] /=.
split; first by rewrite !ffunE /insert0; case: unlift.
by move/negbFE/eqP ->; rewrite !ffunE /insert0 unlift_none; case: (st).
Qed.

Lemma iterate_ok S B (P : S -> Prop) (Ks : seq (S -> prog (S * B))) s :
  (forall K, List.In K Ks -> forall s, P s -> always (fun r => P r.1) (K s)) -> P s -> always P (iterate Ks s).
Proof.
elim: Ks s => [|K Ks IH] s H Ps //=; apply/always_bind; apply: always_imp (H K _ s Ps); last by left.
by move=> r Pr; apply: IH => // K' iK; apply: H; right.
Qed.

(** ** Keys *)
Section Keys.
Variables (N : nat) (mv : mover N.+1).
Hypothesis mvU : forall key w k, uses [:: key] (mv key w k).

Lemma uses_select (Y : Type) key lw (pay : 'I_N.+1 -> Y) : uses [:: key] (select mv key lw pay).
Proof. by apply: uses_ret_bind; exact: mvU. Qed.

Lemma uses_three A B C key (m : prog A) (k : A -> prog B) (l : A -> B -> prog C) :
  uses [:: split key 2] m -> (forall a, uses [:: split key 0] (k a)) -> (forall a b, uses [:: split key 1] (l a b)) ->
  uses [:: key] (do a <- m; do b <- k a; l a b).
Proof.
move=> h1 h2 h3; apply: (@uses_root ([:: split key 2] ++ ([:: split key 0] ++ [:: split key 1]))).
  by rewrite /= !below_split.
apply: uses_bind => // [|a]; first by rewrite /allrel /= !indep_split.
by apply: uses_bind => [||b]; [rewrite /allrel /= indep_split | exact: h2 | exact: h3].
Qed.

Lemma uses_mala (X : finZmodType) log_pdf grad noise ld scale log_H key aux st :
  uses [:: key] (@mala_kernel X N log_pdf grad noise ld scale log_H mv key aux st).
Proof. by apply: uses_three => *; [exact: uses_draw|exact: uses_draw|exact: uses_select]. Qed.

Lemma uses_tp1 (X : finZmodType) log_pdf grad noise scale corr ps key st :
  (forall key u, uses [:: key] (ps key u)) ->
  uses [:: key] (@tp1_kernel X N log_pdf grad noise scale mv corr ps key st).
Proof. by move=> psU; apply: uses_three => *; [exact: uses_draw|exact: psU|exact: uses_select]. Qed.

Lemma uses_imh (X : finType) log_pdf ps key st : (forall key, uses [:: key] (ps key)) ->
  uses [:: key] (@imh_kernel X N log_pdf ps mv key st).
Proof.
move=> psU; apply: (@uses_root ([:: split key 0] ++ [:: split key 1])); first by rewrite /= !below_split.
by apply: uses_bind => [||b]; [rewrite /allrel /= indep_split | exact: psU | exact: uses_select].
Qed.
End Keys.

(** ** The guard of the forced move breaks invariance *)
Section Witness.
Local Notation X := 'I_2.
Variable K : X -> prog X.
Variable kc : key.
Definition deg_log_pdf (x : X) : R := ln (wdeg x).
Hypothesis KE : forall x f, E (K x) f = \sum_(y : X) half *
  E (force_move kc (normalize (fun i => deg_log_pdf (front x (ff1 y) i))) ord0) (fun r => f (front x (ff1 y) r.1)).

Lemma wdeg_gt0 x : 0 < wdeg x.
Proof. by case: x => [[|[|//]] ?]; rewrite /wdeg /tiny /=; toR; lra. Qed.

Lemma exp_deg x : exp (deg_log_pdf x) = wdeg x.
Proof. by rewrite /deg_log_pdf exp_ln //; apply/RltE; exact: wdeg_gt0. Qed.

Lemma deg_move x f : E (K x) f = half * f x + half * E (force_move kc wdeg x) (fun r => f r.1).
Proof.
have diff y : y != x -> E (force_move kc (normalize (fun i => deg_log_pdf (front x (ff1 y) i))) ord0)
   (fun r => f (front x (ff1 y) r.1)) = E (force_move kc wdeg x) (fun r => f r.1).
  move=> yx; pose s := front x (ff1 y).
  have bs : bijective s.
    apply: injF_bij => i j; rewrite /s !ffunE /insert0.
    case: unliftP => [i' ->|->]; case: unliftP => [j' ->|->] //; rewrite ?ffunE.
    - by rewrite (ord1 i') (ord1 j').
    - by move=> e; rewrite e eqxx in yx.
    - by move=> e; rewrite e eqxx in yx.
  have -> : normalize (fun i => deg_log_pdf (s i)) = fun i => wdeg (s i).
    apply: functional_extensionality => i; rewrite normalizeE exp_deg.
    under eq_bigr do rewrite exp_deg.
    by rewrite (sum_relabel bs wdeg) (proj2 wdeg_prob) divr1.
  by rewrite (force_relabels wdeg bs kc ord0 f) /s front0.
have same : E (force_move kc (normalize (fun i => deg_log_pdf (front x (ff1 x) i))) ord0)
   (fun r => f (front x (ff1 x) r.1)) = f x.
  have e i : front x (ff1 x) i = x by rewrite ffunE /insert0; case: unlift => [j|] //; rewrite ffunE.
  rewrite (@eq_E _ _ _ (fun=> f x)) => [|r]; last by rewrite e.
  rewrite -[LHS](E_index_of (@force_move 2) _ _ _ (fun=> f x)) E_force; last exact: normalize_prob.
  by rewrite big1 ?addr0 // => l _; rewrite subrr mulr0.
rewrite KE (bigD1 x) // same; congr (_ + _).
rewrite (eq_bigr (fun=> half * E (force_move kc wdeg x) (fun r => f r.1))) => [|y yx]; last by rewrite diff.
by rewrite sumr_const cardC1 card_ord mulr1n.
Qed.

Lemma deg_refuted c : c != 0 -> ~ keeps_target (fun x => c * exp (deg_log_pdf x)) K.
Proof.
move=> c0 H; apply: (wdeg_no_mass (key := kc)); pose f (i : 'I_2) : R := (i == lift ord0 ord0)%:R.
have := H f; under eq_bigr do rewrite exp_deg deg_move -mulrA.
under [RHS]eq_bigr do rewrite exp_deg -mulrA.
rewrite -!mulr_sumr => /(mulfI c0) h.
transitivity (\sum_k wdeg k * E (force_move kc wdeg k) (fun r => f r.1)).
  by apply: eq_bigr => k _; rewrite E_index_of.
move: h; under eq_bigr do rewrite mulrDr !(mulrCA _ half).
rewrite big_split /= -!mulr_sumr; move: (\sum_k wdeg k * f k) (\sum_k _) => a b.
by rewrite /half; toR; move=> e; lra.
Qed.
End Witness.

Section Witnesses.
Local Notation X := [finZmodType of 'I_2].
Definition hf (x : X) : R := half.
Lemma hf_prob : prob_vec hf.
Proof.
split=> [x|]; first exact: ltW half_gt0.
by rewrite sumr_const card_ord -[half *+ 2]mulr_natl /half mulrCA divff ?mulr1 // pnatr_eq0.
Qed.

Lemma sum_hf (c : R) : \sum_(u : X) half * c = c.
Proof. by rewrite sumr_const card_ord -mulr_natl /half mulrA mulrCA divff ?mulr1 ?mul1r // pnatr_eq0. Qed.

Lemma deg_mala key aux :
  ~ keeps_target (fun x => exp (deg_log_pdf x))
     (fun x : X => at_pos (mala_kernel deg_log_pdf (fun=> 0) hf (fun=> 0) id (fun _ _ _ => 0) (@force_move 2) key aux
                         (tp1_init deg_log_pdf (fun=> 0) x))).
Proof.
move=> H; apply: (@deg_refuted _ (split key 1) _ 1 (oner_neq0 _)); last first.
  by rewrite (_ : (fun x => 1 * exp (deg_log_pdf x)) = fun x => exp (deg_log_pdf x)); [exact: H|apply: functional_extensionality => x; rewrite mul1r].
move=> x f; rewrite [LHS]mala_law.
rewrite (eq_bigr (fun=> half * \sum_(y : X) half * E (force_move (split key 1) (normalize (fun i => deg_log_pdf (front x (ff1 y) i))) ord0)
     (fun r => f (front x (ff1 y) r.1)))) => [|u _].
  by rewrite sum_hf.
rewrite sum_ff1 mulr_sumr; apply: eq_bigr => y _; rewrite mulrA; congr (_ * _).
  by rewrite /mL big_ord_recl big_ord0 mulr1.
congr (E (force_move _ (normalize _) _) _); apply: functional_extensionality => i.
by rewrite /mW; case: (aux); rewrite ?subr0 addr0.
Qed.

Definition unif_one (key : key) (u : X) : prog {ffun 'I_1 -> X} :=
  draw key (fun y : {ffun 'I_1 -> X} => \prod_i hf (y i)).

Lemma unif_one_indep key u : samples_indep (unif_one key u) (fun _ => hf).
Proof.
have [h1 h2] := hf_prob; split=> [|_|f]; [|exact: hf_prob|exact: E_draw].
apply: proper_draw; split=> [y|]; first by apply: prodr_ge0.
by rewrite (sum_prod_ffun (fun _ z => hf z)) big1.
Qed.

Lemma deg_tp1 key :
  ~ keeps_target (fun x => hf x * exp (deg_log_pdf x))
     (fun x : X => at_pos (tp1_kernel deg_log_pdf (fun=> 0) hf id (@force_move 2) (fun _ _ _ => 0) unif_one key
                         (tp1_init deg_log_pdf (fun=> 0) x))).
Proof.
apply: (@deg_refuted _ (split key 1)); last by rewrite lt0r_neq0 // half_gt0.
move=> x f; rewrite [LHS](tp1_law _ _ _ _ _ _ unif_one_indep).
rewrite (eq_bigr (fun=> half * \sum_(y : X) half * E (force_move (split key 1) (normalize (fun i => deg_log_pdf (front x (ff1 y) i))) ord0)
     (fun r => f (front x (ff1 y) r.1)))) => [|u _].
  by rewrite sum_hf.
rewrite sum_ff1 mulr_sumr; apply: eq_bigr => y _; rewrite mulrA; congr (_ * _).
  by rewrite /tL big_ord_recl big_ord0 mulr1.
congr (E (force_move _ (normalize _) _) _); apply: functional_extensionality => i.
by rewrite /tW addr0.
Qed.

Lemma deg_imh key :
  ~ keeps_target (fun x => hf x * exp (deg_log_pdf x))
     (fun x : X => do r <- imh_kernel deg_log_pdf (fun k => unif_one k 0) (@force_move 2) key (imh_init deg_log_pdf x); Ret r.1.1).
Proof.
apply: (@deg_refuted _ (split key 1)); last by rewrite lt0r_neq0 // half_gt0.
move=> x f; rewrite [LHS](imh_law _ _ (fun k => unif_one_indep k 0)) sum_unit sum_ff1; apply: eq_bigr => y _.
by congr (_ * _); rewrite /iL big_ord_recl big_ord0 mulr1.
Qed.

Lemma deg_hyps :
  [/\ prob_vec hf, forall z, hf (- z) = hf z, exists c, c != 0 /\ forall z, exp ((fun=> 0) z) = c * hf z
    & exists S : {ffun 'I_2 -> X} -> R, forall (x : {ffun 'I_2 -> X}) b phi,
        \sum_u hf (u - (x b + phi)) * \prod_(i | i != b) hf (x i - u) = S x * exp ((fun _ _ _ => 0) x (x b) phi)]
  /\ [/\ forall key u, samples_indep (unif_one key u) (fun _ => hf),
         forall u, exists Z, forall x, hf x * hf (u - x) = Z * hf x
       & forall u x g, hf (u - x) * exp ((fun _ _ _ => 0) u x g) = hf (u - (x + g))].
Proof.
have e0 : exp 0 = 1 :> R by rewrite [LHS]exp_0.
split; split=> //.
- exact: hf_prob.
- by exists 2%:R; split=> [|z]; rewrite ?pnatr_eq0 // e0 /hf /half; toR; lra.
- exists (fun=> half) => x b phi; rewrite e0 mulr1.
  under eq_bigr do rewrite prodr_const.
  rewrite (_ : #|_| = 1%N) ?expr1; first exact: sum_hf.
  by rewrite cardC1 card_ord.
- exact: unif_one_indep.
- by move=> u; exists half => x; rewrite mulrC.
- by move=> u x g; rewrite e0 mulr1.
Qed.
End Witnesses.

(** ** The Gaussian formulas *)
Section Formulas.
Variables (d : nat) (delta : R).
Hypothesis d0 : 0 < delta.
Local Notation vec := 'cV[R]_d.
Local Notation S := ((delta / 2%:R)%:M : 'M[R]_d).

Lemma quad_scalar (c : R) (v : vec) : quad (invmx c%:M) v = sqn v / c.
Proof.
rewrite invmx_scalar /quad mul_mx_scalar -scalemxAl mxE mulrC; congr (_ * _).
by rewrite mxE /sqn; apply: eq_bigr => i _; rewrite mxE.
Qed.

Lemma mala_ldE (u m : vec) : mala_ld delta (u - m) = gauss_kernel S u m.
Proof.
rewrite /gauss_kernel quad_scalar /mala_ld.
have -> : sqrt (1 / 2%:R * delta) ^+ 2 = delta / 2%:R.
  rewrite expr2 [LHS]sqrt_sqrt; first by toR; lra.
  by apply/RleE; rewrite mulr_ge0 ?divr_ge0 ?ler0n ?ler01 // ltW.
by move: (sqn _) ((delta / _)^-1) => s e; toR; field.
Qed.

Lemma tp1_corrE (u x g : vec) :
  gauss_kernel S u x + tp1_corr delta u x g = gauss_kernel S u (x + (1 / 2%:R * delta) *: g).
Proof.
rewrite /gauss_kernel !quad_scalar /tp1_corr /sqn.
have -> : \sum_i (u - (x + (1 / 2%:R * delta) *: g)) i 0 * (u - (x + (1 / 2%:R * delta) *: g)) i 0
  = \sum_i (u - x) i 0 * (u - x) i 0 - delta * \sum_i (u - x - (1 / IZR 4 * delta) *: g) i 0 * g i 0.
  rewrite mulr_sumr -sumrB; apply: eq_bigr => i _; rewrite !mxE.
  by move: (u i 0) (x i 0) (g i 0) => a b c; toR; field.
move: (\sum_i _) (\sum_i _) => s t; have := mulfV (lt0r_neq0 d0).
rewrite !invfM invrK; move: delta^-1 => e h.
by transitivity (- (t * e) + (delta * e) * s); [rewrite h|]; toR; field.
Qed.
End Formulas.

(** ** Final forms *)
Lemma mala_force (X : finZmodType) (N : nat) (log_pdf : X -> R) (grad : X -> X) (noise ld : X -> R)
    (scale : X -> X) log_H (key : key) (aux : bool) (c : R) :
  prob_vec noise ->
  (if aux then (forall z, noise (- z) = noise z) /\ exists c, c != 0 /\ forall z, exp (ld z) = c * noise z
   else exists S : {ffun 'I_N.+1 -> X} -> R, forall (x : {ffun 'I_N.+1 -> X}) b phi,
     \sum_u noise (u - (x b + phi)) * \prod_(i | i != b) noise (x i - u) = S x * exp (log_H x (x b) phi)) ->
  nearly_keeps_target (fun x => exp (log_pdf x))
    (fun x => at_pos (mala_kernel log_pdf grad noise ld scale log_H (@force_move N.+1) key aux (tp1_init log_pdf grad x)))
    c (force_eps N.+1 c).
Proof.
move=> h1; case: aux => [[h2 h3]|h2].
  by apply: mala_aux_near => // *; [exact: force_rel|exact: force_bound].
by apply: mala_marg_near => // *; [exact: force_rel|exact: force_bound].
Qed.

Lemma tp1_force (X : finZmodType) (N : nat) (log_pdf : X -> R) (grad : X -> X) (noise : X -> R) (scale : X -> X)
    (corr : X -> X -> X -> R) post_sampling (prior : X -> R) (post : X -> X -> R) (key : key) (c : R) :
  prob_vec noise -> (forall x, 0 <= prior x) -> (forall u, prob_vec (post u)) ->
  (forall key u, samples_indep (post_sampling key u) (fun _ => post u)) ->
  (forall u, exists Z, forall x, prior x * noise (u - x) = Z * post u x) ->
  (forall u x g, noise (u - x) * exp (corr u x g) = noise (u - (x + scale g))) ->
  nearly_keeps_target (fun x => prior x * exp (log_pdf x))
    (fun x => at_pos (tp1_kernel log_pdf grad noise scale (@force_move N.+1) corr post_sampling key (tp1_init log_pdf grad x)))
    c (force_eps N.+1 c).
Proof.
move=> h1 h2 h3 h4 h5 h6.
by apply: (tp1_near _ _ _ _ _ h3 h4) => // *; [exact: force_rel|exact: force_bound].
Qed.

Lemma imh_force (X : finType) (N : nat) (log_pdf : X -> R) prior_sampling (prior : X -> R) (key : key) (c : R) :
  prob_vec prior -> (forall key, samples_indep (prior_sampling key) (fun _ => prior)) ->
  nearly_keeps_target (fun x => prior x * exp (log_pdf x))
    (fun x => do r <- imh_kernel log_pdf prior_sampling (@force_move N.+1) key (imh_init log_pdf x); Ret r.1.1)
    c (force_eps N.+1 c).
Proof.
by move=> h1 h2; apply: imh_near => // *; [exact: force_rel|exact: force_bound].
Qed.

Lemma tp1_refuted : exists (X : finZmodType) (log_pdf : X -> R) (grad : X -> X) (noise : X -> R)
    (scale : X -> X) (corr : X -> X -> X -> R) post_sampling (prior : X -> R) (post : X -> X -> R),
  [/\ prob_vec noise, forall key u, samples_indep (post_sampling key u) (fun _ => post u),
      forall u, exists Z, forall x, prior x * noise (u - x) = Z * post u x
    & forall u x g, noise (u - x) * exp (corr u x g) = noise (u - (x + scale g))] /\
  forall key, ~ keeps_target (fun x => prior x * exp (log_pdf x))
    (fun x => at_pos (tp1_kernel log_pdf grad noise scale (@force_move 2) corr post_sampling key (tp1_init log_pdf grad x))).
Proof.
exists [finZmodType of 'I_2], deg_log_pdf, (fun=> 0), hf, id, (fun _ _ _ => 0), unif_one, hf, (fun=> hf).
have [[h1 _ _ _] [h2 h3 h4]] := deg_hyps.
by split; [split|exact: deg_tp1].
Qed.

Lemma imh_refuted : exists (X : finType) (log_pdf : X -> R) prior_sampling (prior : X -> R),
  prob_vec prior /\ (forall key, samples_indep (prior_sampling key) (fun _ => prior)) /\
  forall key, ~ keeps_target (fun x => prior x * exp (log_pdf x))
    (fun x => do r <- imh_kernel log_pdf prior_sampling (@force_move 2) key (imh_init log_pdf x); Ret r.1.1).
Proof.
exists [finType of 'I_2], deg_log_pdf, (fun k => unif_one k 0), hf.
by split; [exact: hf_prob|split=> [key|]; [exact: unif_one_indep|exact: deg_imh]].
Qed.

Lemma history_ok (X : finZmodType) (log_pdf : X -> R) (grad : X -> X) (Ks : seq (X * R * X -> prog (X * R * X * bool))) (x : X) :
  (forall K, List.In K Ks -> exists (N : nat) (mv : mover N.+1) (key : key) noise scale,
     (exists ld log_H aux, K = mala_kernel log_pdf grad noise ld scale log_H mv key aux) \/
     (exists corr post_sampling, K = tp1_kernel log_pdf grad noise scale mv corr post_sampling key)) ->
  always (fun st => st.1.2 = log_pdf st.1.1 /\ st.2 = grad st.1.1) (iterate Ks (tp1_init log_pdf grad x)).
Proof.
move=> H; apply: iterate_ok => // K iK st c.
have [N [mv [key [noise [scale [[ld [lH [aux ->]]]|[corr [ps ->]]]]]]]] := H K iK.
  by apply: always_imp (mala_ok noise ld scale lH mv key aux c) => r [].
by apply: always_imp (tp1_ok noise scale mv corr ps key c) => r [].
Qed.

Lemma history_imh (X : finType) (log_pdf : X -> R) (Ks : seq (X * R -> prog (X * R * bool))) (x : X) :
  (forall K, List.In K Ks -> exists (N : nat) (mv : mover N.+1) (key : key) prior_sampling,
     K = imh_kernel log_pdf prior_sampling mv key) ->
  always (fun st => st.2 = log_pdf st.1) (iterate Ks (imh_init log_pdf x)).
Proof.
move=> H; apply: iterate_ok => // K iK st c.
have [N [mv [key [ps ->]]]] := H K iK.
by apply: always_imp (imh_ok ps mv key c) => r [].
Qed.

Lemma ex_single (X : finZmodType) (ld : X -> R) : (forall z, ld (- z) = ld z) ->
  let noise z := exp (ld z) / \sum_z exp (ld z) in
  [/\ prob_vec noise, forall z, noise (- z) = noise z & exists c, c != 0 /\ forall z, exp (ld z) = c * noise z].
Proof.
move=> ev noise; split.
- exact: (ex_noise_prob (fun _ : unit => ld) tt).
- exact: (@ex_noise_even _ _ (fun _ : unit => ld) tt ev).
- exact: (ex_noise_ld (fun _ : unit => ld) tt).
Qed.

Lemma ex_laws : exists (X : finZmodType) (noise prior : X -> R) (post : X -> X -> R) post_sampling (corr : X -> X -> X -> R) log_H,
  [/\ prob_vec noise,
      exists S : {ffun 'I_2 -> X} -> R, forall (x : {ffun 'I_2 -> X}) b phi,
        \sum_u noise (u - (x b + phi)) * \prod_(i | i != b) noise (x i - u) = S x * exp (log_H x (x b) phi),
      forall (key : key) u, samples_indep (post_sampling key u) (fun _ : 'I_1 => post u),
      forall u, exists Z, forall x, prior x * noise (u - x) = Z * post u x
    & forall u x g, noise (u - x) * exp (corr u x g) = noise (u - (x + g))].
Proof.
exists [finZmodType of 'I_2], hf, hf, (fun=> hf), unif_one, (fun _ _ _ => 0), (fun _ _ _ => 0).
by have [[h1 h2 h3 h4] [h5 h6 h7]] := deg_hyps; split.
Qed.
