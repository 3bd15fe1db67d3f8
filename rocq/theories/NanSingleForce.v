(** * NanSingleForce: two iterations of mala.py and tp.py with the forced move, on a target with a zero (C90). *)
From Coq Require Import Reals Lra FunctionalExtensionality.
From mathcomp Require Import all_ssreflect all_algebra.
From Verif Require Import RInst Prog ProgTheory Resampling Spec ResamplingProofs ErgodicFinal.
From Verif Require Import CsmcInvariance Single SingleSpec SingleProofs.
From Verif Require Import NanCsmc NanSpec NanTheory NanNumbers NanProofs NanFinal NanExamples NanImh NanImhProofs.
From Verif Require Import NanSingle NanSingleProofs NanSingleFail.

Set Implicit Arguments.
Unset Strict Implicit.
Unset Printing Implicit Defensive.
Import GRing.Theory Num.Theory Order.TTheory.
Local Open Scope ring_scope.

Local Notation G3 := ([finZmodType of 'I_3]).
Local Notation t2 := (lift ord0 (lift ord0 ord0) : G3).
Local Notation third := (fun _ : G3 => 1 / 3%:R : R).
Local Notation flog := (fun x : G3 => xlog (fG x)).
Local Notation zero1 := (fun _ : G3 => 0 : G3).
Local Notation zeroR := (fun _ : G3 => 0 : R).
Local Notation zeroH := (fun (_ : {ffun 'I_3 -> G3}) (_ _ : G3) => 0 : R).
Local Notation some0 := (fun _ : G3 => Some (0 : G3)).
Local Notation K := (@xmala_kernel G3 2 flog some0 third zeroR zero1 zeroH (@force_move 3)).
Local Notation bad := (fun o : option (G3 * xnum * option G3) => (~~ isSome o)%:R : R).

Lemma third_gt0 : 0 < (1 / 3%:R : R). Proof. by rewrite divr_gt0 ?ltr01 ?ltr0Sn. Qed.
Lemma third_prob : prob_vec third.
Proof. exact: (u_prob 2). Qed.

Lemma one_step key aux st : E (xsteps [:: K key aux] st) bad = Pr (K key aux st) (fun o => ~~ isSome o).
Proof. by rewrite [xsteps _ _]/= E_obind /Pr; apply: eq_E => -[a|]. Qed.

Lemma prods_gt0 n (y : {ffun 'I_n -> G3}) (h : 'I_n -> G3) : 0 < \prod_j (third (h j)).
Proof. by apply: prodr_gt0 => j _; exact: third_gt0. Qed.

Lemma one_ge0 key aux st : 0 <= E (xsteps [:: K key aux] st) bad.
Proof.
rewrite one_step /Pr /xmala_kernel /xmala_run; cbn [fst snd]; case: st.2 => [g|]; last by rewrite /= ler01.
rewrite E_bind E_draw; apply: sumr_ge0 => e _; apply: mulr_ge0; first exact: ltW third_gt0.
rewrite E_bind E_draw; apply: sumr_ge0 => eps _; apply: mulr_ge0; first by apply: prodr_ge0 => j _; exact: ltW third_gt0.
by cbv zeta; have := xselect_fail; rewrite /Pr => ->; exact: ler0n.
Qed.

Lemma t2_zero : xlog (fG t2) = NInf. Proof. by rewrite /xlog /fG /= ltxx. Qed.

Lemma one_fails key aux : 0 < E (xsteps [:: K key aux] (t2, NInf, Some 0)) bad.
Proof.
rewrite one_step /Pr /xmala_kernel /xmala_run; cbn [fst snd].
rewrite E_bind E_draw; apply: (sum_pos_one (i := 0)) => [e|].
  apply: mulr_ge0; first exact: ltW third_gt0; rewrite E_bind E_draw; apply: sumr_ge0 => eps _.
  apply: mulr_ge0; first by apply: prodr_ge0 => j _; exact: ltW third_gt0.
  by cbv zeta; have := xselect_fail; rewrite /Pr => ->; exact: ler0n.
rewrite mulr_gt0 ?third_gt0 // E_bind E_draw; cbv zeta; set u := t2 + _ + _.
apply: (sum_pos_one (i := [ffun=> t2 - u])) => [eps|].
  apply: mulr_ge0; first by apply: prodr_ge0 => j _; exact: ltW third_gt0.
  by have := xselect_fail; rewrite /Pr => ->; exact: ler0n.
rewrite mulr_gt0 //; first by apply: prodr_gt0 => j _; exact: third_gt0.
have := xselect_fail; rewrite /Pr => ->.
rewrite self_ninf ?ltr01 // => i.
have e (j : 'I_2) : u + [ffun=> t2 - u] j = t2 by rewrite ffunE addrC subrK.
have e1 : insert0 NInf (fun j => flog (u + [ffun=> t2 - u] j)) i = NInf.
  by rewrite /insert0; case: unlift => [j|] //; rewrite e t2_zero.
have e2 : insert0 (Some 0) (fun j => some0 (u + [ffun=> t2 - u] j)) i = Some 0.
  by rewrite /insert0; case: unlift.
by rewrite /xmala_log_weights; case: aux; rewrite e1 e2.
Qed.

Theorem xmala_force_fails : exists (X : finZmodType) (L : X -> R) (noise ld : X -> R) x,
  [/\ forall x, 0 <= L x, 0 < L x, prob_vec noise, forall z, noise (- z) = noise z
    & exists c, c != 0 /\ forall z, exp (ld z) = c * noise z] /\
  (exists S : {ffun 'I_3 -> X} -> R, forall (x : {ffun 'I_3 -> X}) b phi,
     \sum_u noise (u - (x b + phi)) * \prod_(i | i != b) noise (x i - u) = S x * exp 0) /\
  forall (k1 k2 : key) (aux : bool),
    let K key := xmala_kernel (N := 2) (fun x => xlog (L x)) (fun _ => Some 0) noise ld (fun _ => 0) (fun _ _ _ => 0) (@force_move 3) key aux in
    0 < Pr (xsteps [:: K k1; K k2] (xtp1_init (fun x => xlog (L x)) (fun _ => Some 0) x)) (fun o => ~~ isSome o).
Proof.
exists [finZmodType of 'I_3], fG, third, zeroR, ord0; split.
  split=> //; [exact: fG_ge0|by rewrite /fG eqxx ltr01|exact: third_prob|].
  exists 3%:R; split; first by rewrite pnatr_eq0.
  by move=> z; rewrite exp_0 mul1r mulfV // pnatr_eq0.
split.
  exists (fun _ => \sum_(u : G3) 1 / 3%:R * (1 / 3%:R) ^+ 2) => x b phi; rewrite exp_0 mulr1.
  by apply: eq_bigr => u _; rewrite prodr_const cardC1 card_ord.
move=> k1 k2 aux; cbv zeta.
have lg x : log_of (xlog (fG x)) (fG x) by apply: xlog_of; exact: fG_ge0.
have L0 : 0 < fG ord0 by rewrite /fG eqxx ltr01.
pose F o := if o is Some st then E (xsteps [:: K k2 aux] st) bad else 1.
have F0 o : 0 <= F o by case: o => [st|]; [exact: one_ge0|exact: ler01].
have -> : Pr (xsteps [:: K k1 aux; K k2 aux] (xtp1_init flog some0 ord0)) (fun o => ~~ isSome o)
  = E (do o <- K k1 aux (xtp1_init flog some0 ord0); Ret (omap fst o)) F.
  rewrite /Pr; change (xsteps [:: K k1 aux; K k2 aux]) with
    (fun st => obind (K k1 aux st) (fun r => xsteps [:: K k2 aux] r.1)).
  by rewrite E_obind [RHS]E_bind; apply: eq_E => -[[st b]|].
rewrite (xmala_law zero1 third zeroR zero1 zeroH (@force_move 3) lg k1 aux F L0).
have nn u (y : {ffun 'I_2 -> G3}) : 0 <= mL (N := 2) zero1 third zero1 ord0 u y
  * E (force_move (split k1 1) (nrm (mV fG zero1 zeroR zero1 zeroH aux u (front ord0 y))) ord0)
      (fun r => F (Some (xtp1_init flog some0 (front ord0 y r.1)))).
  apply: mulr_ge0.
    by rewrite /mL; apply: mulr_ge0; [exact: ltW third_gt0|apply: prodr_ge0 => j _; exact: ltW third_gt0].
  apply: E_ge0 => [|r]; last exact: F0; apply: force_proper; apply: (@nrm_prob _ _ ord0) => [j|]; last first.
    exact: (mV0 _ _ _ _ _ _ _ L0).
  by apply: mulr_ge0; [exact: fG_ge0|exact: ltW (cor_gt0 _ _ _ _ _ _ _ _)].
apply: (sum_pos_one (i := 0)) => [u|]; first by apply: sumr_ge0 => y _; exact: nn.
apply: (sum_pos_one (i := [ffun i => lift ord0 i])) => [y|]; first exact: nn.
apply: mulr_gt0.
  by rewrite /mL; apply: mulr_gt0; [exact: third_gt0|apply: prodr_gt0 => j _; exact: third_gt0].
set z := front _ _; have zE i : z i = i.
  by rewrite /z ffunE /insert0; case: unliftP => [j ->|->] //; rewrite ffunE.
have wE : nrm (mV fG zero1 zeroR zero1 zeroH aux 0 z) = fw.
  have v b i : mV fG zero1 zeroR zero1 zeroH b 0 z i = fG i.
    by rewrite /mV /cor zE; case: b; rewrite exp_0 ?divr1 mulr1.
  apply: functional_extensionality => i; rewrite /nrm /fw v; congr (_ / _).
  by apply: eq_bigr => j _; rewrite v.
rewrite wE; apply: lt_le_trans (_ : _ <= _); first exact: mulr_gt0 (force_zero (split k1 1)) (one_fails k2 aux).
rewrite mulrC -E_scale -subr_ge0 -E_sub; apply: E_ge0 => [|r]; first exact: force_proper fw_prob.
rewrite subr_ge0 zE; case: eqP => [->|_]; last by rewrite mulr0; exact: F0.
by rewrite mulr1 /F /xtp1_init t2_zero.
Qed.
