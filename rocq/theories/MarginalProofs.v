(** * MarginalProofs: the weight corrections are marginal Gaussian densities (C21-C23). *)
From Coq Require Import Reals Lra.
From mathcomp Require Import all_ssreflect all_algebra.
From Verif Require Import RInst Gauss GaussSpec GaussProofs.

Set Implicit Arguments.
Unset Strict Implicit.
Unset Printing Implicit Defensive.
Import GRing.Theory Num.Theory Order.TTheory.
Local Open Scope ring_scope.

(** ** Positive matrices *)
Section Positive.
Variable d : nat.
Implicit Types A B : 'M[R]_d.

Lemma positive_unit A : positive A -> A \in unitmx.
Proof.
move=> pA; rewrite -row_free_unit -kermx_eq0; apply/rowV0P => v /sub_kermxP vA.
apply/eqP; apply: contraT => v0; have := pA v^T; rewrite trmx_eq0 => /(_ v0).
by rewrite /quad trmxK vA mul0mx mxE ltxx.
Qed.

Lemma quadD A B v : quad (A + B) v = quad A v + quad B v.
Proof. by rewrite /quad mulmxDr mulmxDl mxE. Qed.
Lemma quadZ a A v : quad (a *: A) v = a * quad A v.
Proof. by rewrite /quad -scalemxAr -scalemxAl mxE. Qed.

Lemma positive_ge0 A v : positive A -> 0 <= quad A v.
Proof.
move=> pA; have [->|v0] := eqVneq v 0; last exact: ltW (pA v v0).
by rewrite /quad mulmx0 mxE.
Qed.

Lemma positive_add A B : positive A -> (forall v, 0 <= quad B v) -> positive (A + B).
Proof. by move=> pA pB v v0; rewrite quadD ltr_paddr // pA. Qed.

Lemma quad_congr A B v : quad (B^T *m A *m B) v = quad A (B *m v).
Proof. by rewrite /quad trmx_mul !mulmxA. Qed.

Lemma sym_inv A : A^T = A -> (invmx A)^T = invmx A.
Proof. by move=> sA; rewrite trmx_inv sA. Qed.

Lemma positive_inv A : symmetric A -> positive A -> positive (invmx A).
Proof.
move=> sA pA v v0; have Au := positive_unit pA.
have -> : invmx A = (invmx A)^T *m A *m invmx A by rewrite sym_inv // mulVmx // mul1mx.
rewrite quad_congr; apply: pA; apply: contra v0 => /eqP e.
by rewrite -[v](mulKVmx Au) e mulmx0.
Qed.

Lemma positive_scalar a : 0 < a -> positive (a%:M : 'M[R]_d).
Proof.
move=> a0 v v0; rewrite quadE mul_scalar_mx dotvZr mulr_gt0 //.
by rewrite lt_def dotvv_eq0 v0 dotvv_ge0.
Qed.
End Positive.

(** ** get_log_H *)
Section LogH.
Variables (d N : nat).
Local Notation vec := 'cV[R]_d.
Local Notation mat := 'M[R]_d.
Variables (B C E : mat).
Hypotheses (sC : symmetric C) (pC : positive C) (sE : symmetric E) (pE : positive E).
Local Notation P := (invmx C).
Local Notation Ei := (invmx E).

Definition prec : mat := Ei + N%:R *: (B^T *m P *m B).
Definition gainG : mat := P *m B *m invmx prec *m (B^T *m P).

Lemma sP : P^T = P. Proof. exact: sym_inv. Qed.
Lemma sEi : Ei^T = Ei. Proof. exact: sym_inv. Qed.
Lemma Eu : E \in unitmx. Proof. exact: positive_unit. Qed.
Lemma Cu : C \in unitmx. Proof. exact: positive_unit. Qed.

Lemma prec_unit : prec \in unitmx.
Proof.
apply: positive_unit; apply: positive_add; first exact: positive_inv.
move=> v; rewrite quadZ quad_congr mulr_ge0 ?ler0n //.
by apply: positive_ge0; exact: positive_inv.
Qed.

Lemma prec_sym : prec^T = prec.
Proof. by rewrite /prec linearD linearZ /= !trmx_mul trmxK sP sEi mulmxA. Qed.

Lemma gainG_sym : gainG^T = gainG.
Proof. by rewrite /gainG !trmx_mul !trmxK sP (sym_inv prec_sym) !mulmxA. Qed.

(** The matrix [G] of the code. *)
Lemma code_G : let Kappa := P *m B *m E in
  Kappa *m (invmx (E + N%:R *: (Kappa^T *m B *m E)) *m Kappa^T) = gainG.
Proof.
move=> K; have -> : K^T = E *m (B^T *m P) by rewrite /K !trmx_mul sP sE.
have -> : E + N%:R *: (E *m (B^T *m P) *m B *m E) = E *m prec *m E.
  rewrite /prec mulmxDr mulmxDl mulmxV ?Eu // mul1mx; congr (_ + _).
  by rewrite -scalemxAr -scalemxAl !mulmxA.
have -> : invmx (E *m prec *m E) = Ei *m invmx prec *m Ei.
  have U : E *m prec *m E \in unitmx by rewrite !unitmx_mul Eu prec_unit.
  rewrite -[RHS](mulKmx U); have -> : E *m prec *m E *m (Ei *m invmx prec *m Ei) = 1%:M; last by rewrite mulmx1.
  by rewrite !mulmxA mulmxK ?Eu // mulmxK ?prec_unit // mulmxV ?Eu.
by rewrite /K /gainG !mulmxA mulmxK ?Eu // mulmxKV ?Eu.
Qed.

Local Notation W := (P - N%:R *: gainG).

Lemma W1 : Ei *m invmx prec *m (B^T *m P) = B^T *m W.
Proof.
have e : Ei = prec - N%:R *: (B^T *m P *m B) by rewrite /prec addrK.
rewrite {1}e mulmxBl mulmxV ?prec_unit // mulmxBl mul1mx mulmxBr; congr (_ - _).
by rewrite /gainG -!scalemxAl -scalemxAr !mulmxA.
Qed.

Lemma W_sym : W^T = W.
Proof. by rewrite linearB linearZ /= gainG_sym sP. Qed.

Lemma W2 : Ei *m invmx prec *m Ei = Ei - N%:R *: (B^T *m W *m B).
Proof.
set Y := N%:R *: (B^T *m P *m B).
have e : Ei = prec - Y by rewrite /prec addrK.
transitivity ((prec - Y) *m invmx prec *m Ei); first by rewrite -e.
rewrite !mulmxBl mulmxV ?prec_unit // mul1mx; congr (_ - _).
have <- : B^T *m P *m B *m invmx prec *m Ei = B^T *m W *m B; last by rewrite /Y -!scalemxAl.
have : (Ei *m invmx prec *m (B^T *m P) *m B)^T = (B^T *m W *m B)^T by rewrite W1.
by rewrite !trmx_mul W_sym trmxK sP sEi (sym_inv prec_sym) !mulmxA.
Qed.

(** Covariance of the other particles: blocks [delta_ij C + B E B^T]. *)
Lemma W3 : C *m gainG = B *m E *m B^T *m W.
Proof.
rewrite -(mulmxA _ B^T) -W1 !mulmxA mulmxK ?Eu //.
by rewrite mulmxV ?Cu // mul1mx.
Qed.

Section Fixed.
Variables (xs ds phis : 'I_N.+1 -> vec).
Local Notation z := (fun i => xs i - ds i).
Definition yv (n : 'I_N.+1) : vec := xs n + phis n.
Definition Sall : vec := \sum_i (xs i - ds i).
Definition sv (n : 'I_N.+1) : vec := \sum_(i | i != n) (xs i - ds i).
Definition qall : R := \sum_i dotv (z i) (P *m z i).
Definition cst : R := (dotv Sall (gainG *m Sall) - qall) / 2%:R.

Lemma svE n : sv n = Sall - z n.
Proof. by rewrite /Sall (bigD1 n) //= addrC addKr. Qed.

Lemma qallE n : qall - dotv (z n) (P *m z n) = \sum_(i | i != n) dotv (z i) (P *m z i).
Proof. by rewrite /qall (bigD1 n) //= addrC addKr. Qed.

Definition lH n : R := get_log_H xs ds B P E (xs n) (ds n) (phis n).

Lemma lHE n : lH n + cst =
  - (N%:R * dotv (B *m yv n) (W *m (B *m yv n)) - 2%:R * dotv (sv n) (W *m (B *m yv n))
     - dotv (sv n) (gainG *m sv n) + qall - dotv (z n) (P *m z n)) / 2%:R.
Proof.
rewrite /lH /get_log_H code_G -/(yv n).
have -> : mean0 xs - mean0 ds = N.+1%:R^-1 *: Sall.
  by rewrite /mean0 -scalerBr /Sall big_split /= sumrN.
rewrite dotvZl.
have -> (t : R) : 2%:R * (N%:R + 1) * (N.+1%:R^-1 * t) = 2%:R * t.
  by rewrite -mulrA [X in _ * X = _]mulrA -mulrSr divff ?mul1r // pnatr_eq0.
rewrite svE /cst; move: (B *m yv n) (xs n - ds n) => y v; move: (W) W_sym => V V_sym.
distr; rewrite (sym_dotC v Sall gainG_sym).
by move: qall N%:R => q nn; dotfield.
Qed.

Definition joint (n : 'I_N.+1) (u : vec) : R :=
  gauss_kernel E u (xs n + phis n) + \sum_(i | i != n) gauss_kernel C (xs i) (ds i + B *m u).

Definition hv n : vec := Ei *m yv n + B^T *m (P *m sv n).

Lemma hvE n : dotv (hv n) (invmx prec *m hv n) =
  dotv (yv n) (Ei *m yv n) - N%:R * dotv (B *m yv n) (W *m (B *m yv n))
  + 2%:R * dotv (sv n) (W *m (B *m yv n)) + dotv (sv n) (gainG *m sv n).
Proof.
rewrite /hv; move: (yv n) (sv n) => y v.
rewrite mulmxDr dotvDl !dotvDr.
have e1 : dotv (Ei *m y) (invmx prec *m (Ei *m y)) =
    dotv y (Ei *m y) - N%:R * dotv (B *m y) (W *m (B *m y)).
  have -> : dotv (Ei *m y) (invmx prec *m (Ei *m y)) = dotv y (Ei *m invmx prec *m Ei *m y).
    by rewrite -!mulmxA [RHS]dotvM sEi.
  by rewrite W2 mulmxBl dotvBr -scalemxAl dotvZr -!mulmxA [X in _ - _ * X]dotvM trmxK.
have e2 : dotv (Ei *m y) (invmx prec *m (B^T *m (P *m v))) = dotv v (W *m (B *m y)).
  have -> : dotv (Ei *m y) (invmx prec *m (B^T *m (P *m v))) = dotv y (Ei *m invmx prec *m (B^T *m P) *m v).
    by rewrite -!mulmxA [RHS]dotvM sEi.
  by rewrite W1 -mulmxA dotvM trmxK (sym_dotC _ _ W_sym).
have e3 : dotv (B^T *m (P *m v)) (invmx prec *m (Ei *m y)) = dotv v (W *m (B *m y)).
  by rewrite (sym_dotC _ _ (sym_inv prec_sym)).
have e4 : dotv (B^T *m (P *m v)) (invmx prec *m (B^T *m (P *m v))) = dotv v (gainG *m v).
  by rewrite /gainG -!mulmxA [RHS]dotvM sP [RHS]dotvM.
rewrite e1 e2 e3 e4; move: N%:R => nn; dotfield.
Qed.

Lemma joint_square n u :
  joint n u = lH n + cst + - (quad prec (u - invmx prec *m hv n) / 2%:R).
Proof.
rewrite lHE quadE.
have -> : dotv (u - invmx prec *m hv n) (prec *m (u - invmx prec *m hv n))
   = dotv u (prec *m u) - 2%:R * dotv u (hv n) + dotv (hv n) (invmx prec *m hv n).
  rewrite mulmxBr mulKVmx ?prec_unit // dotvBl !dotvBr.
  rewrite (sym_dotC _ u prec_sym) mulKVmx ?prec_unit // (dotvC (invmx _ *m _)).
  by dotfield.
rewrite hvE /hv.
have -> : dotv u (prec *m u) = dotv u (Ei *m u) + N%:R * dotv (B *m u) (P *m (B *m u)).
  by rewrite /prec mulmxDl dotvDr -scalemxAl dotvZr -!mulmxA [dotv u (B^T *m _)]dotvM trmxK.
rewrite dotvDr [dotv u (B^T *m _)]dotvM trmxK.
rewrite /joint /gauss_kernel quadE -/(yv n).
have -> : \sum_(i | i != n) - (quad P (xs i - (ds i + B *m u)) / 2%:R)
   = - ((qall - dotv (z n) (P *m z n)) - 2%:R * dotv (B *m u) (P *m sv n)
        + N%:R * dotv (B *m u) (P *m (B *m u))) / 2%:R.
  have -> : N%:R * dotv (B *m u) (P *m (B *m u)) = \sum_(i < N.+1 | i != n) dotv (B *m u) (P *m (B *m u)).
    by rewrite sumr_const cardC1 card_ord mulr_natl.
  rewrite qallE /sv mulmx_sumr dotv_sumr.
  rewrite mulr_sumr -sumrN -!big_split /= mulNr mulr_suml -sumrN; apply: eq_bigr => i _.
  rewrite quadE opprD addrA; move: (xs i - ds i) (B *m u) => v w.
  distr; rewrite (sym_dotC v w sP); dotfield.
move: (sv n) (yv n) (B *m yv n) (B *m u) (xs n - ds n) => v y By Bu zn.
distr; rewrite (sym_dotC y u sEi).
by move: qall N%:R => q nn; dotfield.
Qed.

Lemma log_H_marginal : marginal_of joint lH.
Proof.
apply: (@complete_square _ _ joint lH cst (fun w => - (quad prec w / 2%:R))
  (fun n => invmx prec *m hv n)) => n u; exact: joint_square.
Qed.

(** The density of the other particles. *)
Definition block (i j : 'I_N.+1) : mat := (if i == j then P else 0) - gainG.

Lemma block_inverse n i j : i != n -> j != n ->
  \sum_(k | k != n) ((if i == k then C else 0) + B *m E *m B^T) *m block k j = if i == j then 1%:M else 0.
Proof.
move=> ni nj; rewrite /block.
under eq_bigr do rewrite mulmxDl.
rewrite big_split /= (bigD1 i) //= eqxx big1 ?addr0; last first.
  by move=> k /andP [_]; rewrite eq_sym => /negbTE ->; rewrite mul0mx.
have -> : \sum_(k | k != n) B *m E *m B^T *m ((if k == j then P else 0) - gainG) = B *m E *m B^T *m W.
  rewrite -mulmx_sumr big_split /= (bigD1 j) //= eqxx big1 ?addr0; last by move=> k /andP [_ /negbTE ->].
  by rewrite sumrN sumr_const cardC1 card_ord scaler_nat.
rewrite -W3 mulmxBr subrK; case: eqP => [_|_]; last by rewrite mulmx0.
by rewrite mulmxV ?Cu.
Qed.

Lemma lH_block n : lH n + cst =
  - (\sum_(i | i != n) \sum_(j | j != n)
      dotv (xs i - (ds i + B *m (xs n + phis n))) (block i j *m (xs j - (ds j + B *m (xs n + phis n))))) / 2%:R.
Proof.
rewrite lHE -/(yv n); congr (- _ / _); move: (yv n) => y.
pose r i := xs i - (ds i + B *m y).
have rE i : r i = z i - B *m y by rewrite /r opprD addrA.
rewrite -/(r _).
have -> : \sum_(i | i != n) \sum_(j | j != n) dotv (r i) (block i j *m r j)
   = \sum_(i | i != n) dotv (r i) (P *m r i) - dotv (\sum_(i | i != n) r i) (gainG *m (\sum_(i | i != n) r i)).
  rewrite mulmx_sumr dotv_suml -sumrN -big_split /=; apply: eq_bigr => i ni.
  rewrite dotv_sumr -sumrN (bigD1 i) //= [in X in _ = _ + X](bigD1 i) //= /block eqxx.
  rewrite mulmxBl dotvBr -addrA; congr (_ + (_ + _)).
  by apply: eq_bigr => j /andP [_]; rewrite eq_sym => /negbTE ->; rewrite sub0r mulNmx dotvNr.
have -> : \sum_(i | i != n) r i = sv n - N%:R *: (B *m y).
  rewrite /sv (eq_bigr _ (fun i _ => rE i)) big_split /= sumrN sumr_const cardC1 card_ord.
  by rewrite scaler_nat.
have -> : \sum_(i | i != n) dotv (r i) (P *m r i) =
    qall - dotv (z n) (P *m z n) - 2%:R * dotv (sv n) (P *m (B *m y)) + N%:R * dotv (B *m y) (P *m (B *m y)).
  have -> : N%:R * dotv (B *m y) (P *m (B *m y)) = \sum_(i < N.+1 | i != n) dotv (B *m y) (P *m (B *m y)).
    by rewrite sumr_const cardC1 card_ord mulr_natl.
  rewrite qallE /sv dotv_suml.
  rewrite mulr_sumr -sumrN -!big_split /=; apply: eq_bigr => i _.
  rewrite rE; move: (xs i - ds i) (B *m y) => v w.
  distr; rewrite (sym_dotC w v sP); dotfield.
move: (B *m y) (sv n) => w v.
rewrite ?(mulmxBl, mulmxBr) -?scalemxAr -?scalemxAl; distr.
rewrite -?scalemxAl; distr; rewrite (sym_dotC w v gainG_sym).
by move: qall N%:R => q nn; dotfield.
Qed.
End Fixed.
End LogH.

(** ** Specialised corrections *)
Section Special.
Variables (d N : nat).
Local Notation vec := 'cV[R]_d.
Local Notation mat := 'M[R]_d.
Implicit Types (xs ds : 'I_N.+1 -> vec) (x e phi : vec).

Lemma Np1 : N%:R + 1 != 0 :> R. Proof. by rewrite -mulrSr pnatr_eq0. Qed.

Lemma bis_general xs ds (K : mat) (delta : R) x e phi :
  K \in unitmx -> 1%:M + N%:R *: K \in unitmx -> delta != 0 -> symmetric K ->
  get_log_H_bis xs ds K (invmx K) delta x e phi
  = get_log_H xs ds K ((2%:R / delta) *: invmx K) ((delta / 2%:R)%:M) x e phi.
Proof.
move=> Ku Nu d0 sK; rewrite /get_log_H_bis /get_log_H.
have dd : 2%:R / delta * (delta / 2%:R) = 1.
  by move/eqP: d0 => d0; toR; field.
have two0 : 2%:R != 0 :> R by rewrite pnatr_eq0.
have -> : (2%:R / delta) *: invmx K *m K *m (delta / 2%:R)%:M = 1%:M :> mat.
  by rewrite -scalemxAl mulVmx // mul_mx_scalar scalerA mulrC dd scale1r.
have -> : delta^-1 *: (2%:R *: invmx K) = (2%:R / delta) *: invmx K by rewrite scalerA mulrC.
set G := 1%:M *m (invmx _ *m 1%:M^T).
have GE : G = (2%:R / delta) *: invmx (1%:M + N%:R *: K).
  rewrite /G trmx1 mulmx1 !mul1mx mul_mx_scalar.
  have -> : (delta / 2%:R)%:M + N%:R *: ((delta / 2%:R) *: K) = (delta / 2%:R) *: (1%:M + N%:R *: K).
    by rewrite scalerDr scalemx1 !scalerA (mulrC N%:R).
  have U : delta / 2%:R \is a GRing.unit by rewrite unitfE mulf_neq0 ?invr_eq0.
  by rewrite invmxZ ?unitmxZ // invf_div.
have -> : delta^-1 *: (2%:R *: invmx (1%:M + N%:R *: K)) = G by rewrite GE scalerA mulrC.
have WK : ((2%:R / delta) *: invmx K - N%:R *: G) *m K = G.
  have -> : (2%:R / delta) *: invmx K - N%:R *: G
      = (2%:R / delta) *: (invmx K - N%:R *: invmx (1%:M + N%:R *: K)).
    by rewrite GE scalerBr !scalerA (mulrC N%:R).
  rewrite GE -scalemxAl; congr (_ *: _); rewrite mulmxBl mulVmx //.
  apply: (can_inj (mulKmx Nu)); rewrite mulmxV // mulmxBr mulmx1 -scalemxAl -scalemxAr mulKVmx //.
  by rewrite addrK.
rewrite ![_ *m (K *m _)]mulmxA; move: G {GE} WK => G ->.
have -> : G *m (x - e) - G *m (x + phi) = - (G *m (e + phi)).
  by rewrite -mulmxBr -mulmxN; congr (_ *m _); rewrite !opprD addrACA subrr add0r.
by rewrite dotvNr mulrN.
Qed.

Lemma mala_general xs x phi (c_inv e : R) : c_inv * e = 1 ->
  mala_log_H xs c_inv e x phi = get_log_H xs (fun=> 0) 1%:M c_inv%:M e%:M x 0 phi.
Proof.
move=> ce; have e0 : e != 0 by apply: contraPneq ce => ->; rewrite mulr0 => /esym/eqP; rewrite oner_eq0.
have ne0 : e + N%:R * e != 0 by rewrite -{1}[e]mul1r -mulrDl addrC mulf_neq0 ?Np1.
rewrite /mala_log_H /get_log_H mulmx1 -scalar_mxM ce trmx1 !mul1mx mulmx1 scale_scalar_mx -raddfD /=.
rewrite invmx_scalar scale_scalar_mx -raddfB -raddfD /=.
have -> : @mean0 d N (fun=> 0) = 0 by rewrite /mean0 big1 ?scaler0.
rewrite !subr0 !mul_scalar_mx !mul1r; move: (mean0 xs) ((e + N%:R * e)^-1) => xb k; distr.
by rewrite (dotvC phi x); move: N%:R => nn; dotfield.
Qed.

Lemma l_mala xs x phi ell : ell != 0 ->
  log_H_phi N ell phi (mean0 xs) x = mala_log_H xs (2%:R / ell) (ell / 2%:R) x phi.
Proof.
move=> l0; have n0 := Np1; rewrite /log_H_phi /mala_log_H sqnE.
have -> : 1 / (ell / 2%:R + N%:R * (ell / 2%:R)) = 2%:R / (ell * (N%:R + 1)).
  have -> : ell / 2%:R + N%:R * (ell / 2%:R) = (ell * (N%:R + 1)) / 2%:R.
    by move: N%:R => nn; toR; field.
  by rewrite div1r invf_div.
move: (mean0 xs) => xb; distr; rewrite (dotvC phi x).
move/eqP: l0 => l0; move/eqP: n0; move: N%:R => nn n0.
by gendot; toR; field.
Qed.
End Special.

(** ** C21: the correction of l_csmc_f.py *)
Section PMala.
Variables (d N : nat).
Local Notation vec := 'cV[R]_d.
Variables (ell : R) (xs phis : 'I_N.+1 -> vec).
Hypothesis l0 : 0 < ell.

Lemma l_joint n u : joint 1%:M (ell / 2%:R)%:M (ell / 2%:R)%:M xs (fun=> 0) phis n u =
  gauss_kernel (ell / 2%:R)%:M u (xs n + phis n) + \sum_(i | i != n) gauss_kernel (ell / 2%:R)%:M (xs i) u.
Proof. by rewrite /joint; congr (_ + _); apply: eq_bigr => i _; rewrite mul1mx add0r. Qed.

Lemma l_general n : log_H_phi N ell (phis n) (mean0 xs) (xs n)
  = lH 1%:M (ell / 2%:R)%:M (ell / 2%:R)%:M xs (fun=> 0) phis n.
Proof.
rewrite l_mala ?lt0r_neq0 // mala_general; last first.
  by have /lt0r_neq0/eqP := l0 => l1; toR; field.
by rewrite -[2%:R / ell]invf_div -invmx_scalar.
Qed.

Lemma l_pos : positive ((ell / 2%:R)%:M : 'M[R]_d).
Proof. by apply: positive_scalar; rewrite divr_gt0 ?ltr0n. Qed.
Lemma l_sym : symmetric ((ell / 2%:R)%:M : 'M[R]_d).
Proof. by rewrite /symmetric tr_scalar_mx. Qed.
End PMala.
