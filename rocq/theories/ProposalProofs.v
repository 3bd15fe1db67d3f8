(** * ProposalProofs: the preconditioned proposal (C25). *)
From Coq Require Import Reals Lra.
From mathcomp Require Import all_ssreflect all_algebra.
From Verif Require Import RInst Gauss GaussSpec GaussProofs MarginalProofs Proposal.

Set Implicit Arguments.
Unset Strict Implicit.
Unset Printing Implicit Defensive.
Import GRing.Theory Num.Theory Order.TTheory.
Local Open Scope ring_scope.

Section Diag.
Variable d : nat.
Local Notation mat := 'M[R]_d.
Implicit Types (A U : mat) (v w : 'rV[R]_d).

Lemma cols_timesE A v : cols_times A v = A *m diag_mx v.
Proof.
apply/matrixP => i j; rewrite !mxE (bigD1 j) //= big1 ?addr0 => [|k kj].
  by rewrite mxE eqxx.
by rewrite mxE (negbTE kj) mulr0n mulr0.
Qed.

Lemma rows_timesE A v : rows_times v A = diag_mx v *m A.
Proof. by apply/matrixP => i j; rewrite mul_diag_mx !mxE. Qed.

Lemma cols_divE A v : cols_div A v = A *m diag_mx (\row_i (v 0 i)^-1).
Proof. by rewrite -cols_timesE; apply/matrixP => i j; rewrite !mxE. Qed.

Lemma rows_divE A v : rows_div A v = diag_mx (\row_i (v 0 i)^-1) *m A.
Proof. by rewrite -rows_timesE; apply/matrixP => i j; rewrite !mxE mulrC. Qed.

Lemma diagM v w : diag_mx v *m diag_mx w = diag_mx (\row_i (v 0 i * w 0 i)).
Proof.
apply/matrixP => i j; rewrite mul_diag_mx !mxE; case: eqP => [->|_]; rewrite ?mulr1n ?mulr0n ?mulr0 //.
Qed.

Lemma diag_unit v : (forall i, v 0 i != 0) -> diag_mx v *m diag_mx (\row_i (v 0 i)^-1) = 1%:M.
Proof.
move=> v0; rewrite diagM; apply/matrixP => i j; rewrite !mxE divff //.
Qed.

Lemma invmx_uniq A B : A *m B = 1%:M -> invmx A = B.
Proof.
move=> AB; have [uA _] := mulmx1_unit AB.
by rewrite -[RHS](mulKmx uA) AB mulmx1.
Qed.
End Diag.

Section Gain.
Variables (d : nat) (U : 'M[R]_d) (G : 'rV[R]_d) (ell : R).
Hypotheses (UU : U *m U^T = 1%:M) (G0 : forall i, 0 < G 0 i) (l0 : 0 < ell).
Implicit Types (v w : 'rV[R]_d).
Let p := get_proposal_params ell U G U^T.
Definition Qm : 'M[R]_d := U *m diag_mx G *m U^T.
Definition Kd : 'rV[R]_d := \row_i (G 0 i / (G 0 i + ell / 2%:R)).

Lemma UtU : U^T *m U = 1%:M. Proof. exact: mulmx1C. Qed.

Lemma conj_mul v w : U *m diag_mx v *m U^T *m (U *m diag_mx w *m U^T) = U *m diag_mx (\row_i (v 0 i * w 0 i)) *m U^T.
Proof. by rewrite -diagM !mulmxA -[U *m _ *m U^T *m U]mulmxA UtU mulmx1. Qed.

Lemma conj_add v w : U *m diag_mx v *m U^T + U *m diag_mx w *m U^T = U *m diag_mx (v + w) *m U^T.
Proof. by rewrite -mulmxDl -mulmxDr -raddfD. Qed.

Lemma conj_scalar a : a%:M = U *m diag_mx (const_mx a) *m U^T.
Proof. by rewrite diag_const_mx mul_mx_scalar -scalemxAl UU scalemx1. Qed.

Lemma conj_inv v : (forall i, v 0 i != 0) -> invmx (U *m diag_mx v *m U^T) = U *m diag_mx (\row_i (v 0 i)^-1) *m U^T.
Proof.
move=> v0; apply: invmx_uniq; rewrite conj_mul (conj_scalar 1); congr (_ *m diag_mx _ *m _).
by apply/rowP => i; rewrite !mxE divff.
Qed.

Lemma conj_inj v w : U *m diag_mx v *m U^T = U *m diag_mx w *m U^T -> v = w.
Proof.
move=> e; have : U^T *m (U *m diag_mx v *m U^T) *m U = U^T *m (U *m diag_mx w *m U^T) *m U by rewrite e.
rewrite !mulmxA UtU !mul1mx -!mulmxA UtU !mulmx1 => /matrixP H.
by apply/rowP => i; have := H i i; rewrite !mxE eqxx !mulr1n.
Qed.

Lemma Gl i : G 0 i + ell / 2%:R != 0.
Proof. by rewrite lt0r_neq0 // addr_gt0 // divr_gt0 ?ltr0n. Qed.

Lemma KE : K_1 p *m K_2 p = U *m diag_mx Kd *m U^T.
Proof.
rewrite /= rows_timesE mulmxA; congr (_ *m diag_mx _ *m _).
by apply/rowP => i; rewrite !mxE div1r.
Qed.

Lemma gainE : K_1 p *m K_2 p = Qm *m invmx (Qm + (ell / 2%:R)%:M).
Proof.
rewrite KE /Qm (conj_scalar (ell / _)) conj_add conj_inv; last by move=> i; rewrite !mxE Gl.
by rewrite conj_mul; congr (_ *m diag_mx _ *m _); apply/rowP => i; rewrite !mxE.
Qed.

Lemma K_invE : p_K_inv p = invmx (K_1 p *m K_2 p).
Proof.
have K0 i : Kd 0 i != 0 by rewrite mxE mulf_neq0 ?invr_neq0 ?Gl // lt0r_neq0.
rewrite KE conj_inv //= rows_divE mulmxA; congr (_ *m diag_mx _ *m _).
by apply/rowP => i; rewrite !mxE div1r.
Qed.

(** The clipping is not active. *)
Hypothesis clip : forall i, stable_zero <= G 0 i * (ell / 2%:R) / (G 0 i + ell / 2%:R).
Definition var (i : 'I_d) : R := ell / 2%:R * Kd 0 i.

Lemma var_gt0 i : 0 < var i.
Proof.
rewrite /var mxE mulr_gt0 ?divr_gt0 ?ltr0n //.
by rewrite addr_gt0 // divr_gt0 ?ltr0n.
Qed.

Lemma tempE i : Num.max (G 0 i - G 0 i ^+ 2 * (1 / (G 0 i + ell / 2%:R))) stable_zero = var i.
Proof.
have -> : G 0 i - G 0 i ^+ 2 * (1 / (G 0 i + ell / 2%:R)) = G 0 i * (ell / 2%:R) / (G 0 i + ell / 2%:R).
  have /eqP := Gl i; move: (ell / 2%:R) (G 0 i) => e g; rewrite expr2; toR => H; field.
  by [].
by rewrite max_l ?clip // /var mxE [RHS]mulrA; congr (_ * _); rewrite mulrC.
Qed.

Lemma sqrt_sq i : sqrt (var i) * sqrt (var i) = var i.
Proof. by apply: sqrt_sqrt; move: (ltW (var_gt0 i)); rewrite RleE. Qed.

Lemma cholE : p_chol p = U *m diag_mx (\row_i sqrt (var i)).
Proof.
rewrite /= cols_timesE; congr (_ *m diag_mx _); apply/rowP => i.
by rewrite !mxE; congr sqrt; exact: tempE.
Qed.

Lemma chol_invE : p_chol_inv p = U *m diag_mx (\row_i (sqrt (var i))^-1).
Proof.
rewrite /= cols_divE; congr (_ *m diag_mx _); apply/rowP => i.
by rewrite !mxE; congr (_^-1); congr sqrt; exact: tempE.
Qed.

Lemma cov_K : p_chol p *m (p_chol p)^T = (ell / 2%:R) *: (K_1 p *m K_2 p).
Proof.
rewrite cholE trmx_mul tr_diag_mx mulmxA -[U *m _ *m _]mulmxA diagM KE.
rewrite scalemxAl scalemxAr -linearZ /=; congr (_ *m diag_mx _ *m _).
by apply/rowP => i; rewrite !mxE sqrt_sq /var mxE.
Qed.

Lemma covE : p_chol p *m (p_chol p)^T = Qm - K_1 p *m K_2 p *m Qm.
Proof.
rewrite cov_K KE /Qm conj_mul -mulNmx -mulmxN -linearN /= conj_add scalemxAl scalemxAr -linearZ /=.
congr (_ *m diag_mx _ *m _); apply/rowP => i; rewrite !mxE.
have /eqP := Gl i; move: (ell / 2%:R) (G 0 i) => e g; toR => H; field.
by [].
Qed.

(** What the code evaluates, and what it should evaluate. *)
Definition prec_d : 'rV[R]_d := \row_i (var i)^-1.

Lemma var_nz i : sqrt (var i) != 0.
Proof. by apply/eqP => e; have := var_gt0 i; rewrite -sqrt_sq e mulr0 ltxx. Qed.

Lemma code_quad u m x : prop_logpdf p u m x = gauss_kernel (invmx (diag_mx prec_d)) x (prop_mean p u m).
Proof.
rewrite /prop_logpdf /mvn_logpdf /logpdf_with_inv subr0 sqnE /gauss_kernel invmxK quadE chol_invE.
move: (x - _) => z; rewrite dotvM !mulmxA trmx_mul tr_diag_mx -[_ *m U^T *m U]mulmxA UtU mulmx1 diagM.
have -> : \row_i ((\row_i0 (sqrt (var i0))^-1) 0 i * (\row_i0 (sqrt (var i0))^-1) 0 i) = prec_d.
  by apply/rowP => i; rewrite !mxE -invfM sqrt_sq.
by rewrite dotvC; dotfield.
Qed.

Lemma covU : p_chol p *m (p_chol p)^T = U *m diag_mx (\row_i var i) *m U^T.
Proof.
rewrite cov_K KE scalemxAl scalemxAr -linearZ /=; congr (_ *m diag_mx _ *m _).
by apply/rowP => i; rewrite !mxE /var mxE.
Qed.

Lemma cov_inv : invmx (p_chol p *m (p_chol p)^T) = U *m diag_mx prec_d *m U^T.
Proof.
rewrite covU conj_inv; last by move=> i; rewrite mxE lt0r_neq0 ?var_gt0.
by congr (_ *m diag_mx _ *m _); apply/rowP => i; rewrite !mxE.
Qed.

Lemma chol_unit : p_chol p \in unitmx.
Proof.
have [u1 _] := mulmx1_unit UU; rewrite cholE unitmx_mul u1 /=.
have e : diag_mx (\row_i sqrt (var i)) *m diag_mx (\row_i ((\row_i0 sqrt (var i0)) 0 i)^-1) = 1%:M :> 'M[R]_d.
  by apply: diag_unit => i; rewrite mxE var_nz.
by have [] := mulmx1_unit e.
Qed.

(** Density of the noise, through the map that samples. *)
Lemma rvs_density_prop u m eps :
  gauss_kernel (p_chol p *m (p_chol p)^T) (prop_rvs p u m eps) (prop_mean p u m) = gauss_kernel 1%:M eps 0.
Proof.
rewrite /gauss_kernel /prop_rvs addrAC subrr add0r subr0 invmx1; congr (- (_ / _)).
have cu := chol_unit; move: (p_chol p) cu => L Lu.
have Ltu : L^T \in unitmx by rewrite unitmx_tr.
have -> : invmx (L *m L^T) = invmx L^T *m invmx L.
  by apply: invmx_uniq; rewrite -mulmxA [L^T *m _]mulmxA mulmxV // mul1mx mulmxV.
by rewrite /quad trmx_mul !mulmxA mulmxK // -!mulmxA mulKmx // mul1mx.
Qed.

(** When the evaluated density is the one sampled from. *)
Lemma sym_quad_inj (A B : 'M[R]_d) : A^T = A -> B^T = B -> (forall z, quad A z = quad B z) -> A = B.
Proof.
move=> sA sB H.
have D (u v : 'cV[R]_d) : dotv u (A *m v) = dotv u (B *m v).
  have := H (u + v); rewrite !quadE !mulmxDr !dotvDl !dotvDr -!quadE !H (sym_dotC v u sA) (sym_dotC v u sB).
  rewrite !quadE; gendot; toR => e; lra.
apply/matrixP => i j; have := D (delta_mx i 0) (delta_mx j 0).
have e (M : 'M[R]_d) : dotv (delta_mx i 0) (M *m delta_mx j 0) = M i j.
  rewrite /dotv trmx_delta -colE -rowE !mxE //.
by rewrite !e.
Qed.

Lemma density_iff :
  (exists c, forall u m x, prop_logpdf p u m x
      = gauss_kernel (p_chol p *m (p_chol p)^T) x (prop_mean p u m) + c)
  <-> Qm = diag_mx G.
Proof.
have L : U *m diag_mx prec_d *m U^T = diag_mx prec_d <-> Qm = diag_mx G.
  have -> : prec_d = (\row_i (G 0 i)^-1) + const_mx (2%:R / ell).
    apply/rowP => i; rewrite !mxE /var mxE.
    have := Gl i; have /lt0r_neq0/eqP := G0 i; have /lt0r_neq0/eqP := l0.
    move: (G 0 i) => g l1 g1 _.
    by rewrite invfM !invf_div; toR; field.
  rewrite raddfD /= mulmxDr mulmxDl -(conj_scalar (2%:R / ell)) diag_const_mx.
  have -> : U *m diag_mx (\row_i (G 0 i)^-1) *m U^T = invmx Qm.
    by rewrite conj_inv // => i; rewrite lt0r_neq0.
  have <- : invmx (diag_mx G) = diag_mx (\row_i (G 0 i)^-1).
    by apply: invmx_uniq; apply: diag_unit => i; rewrite lt0r_neq0.
  split=> [/addIr e|->] //; by rewrite -[LHS]invmxK e invmxK.
rewrite -L; split=> [[c H]|e]; last first.
  by exists 0 => u m x; rewrite addr0 code_quad /gauss_kernel invmxK cov_inv e.
apply/esym/sym_quad_inj; rewrite ?tr_diag_mx // ?trmx_mul ?trmxK ?tr_diag_mx ?mulmxA // => z.
have H' x : prop_logpdf p 0 0 x = gauss_kernel (p_chol p *m (p_chol p)^T) x (prop_mean p 0 0) + c by exact: H.
have c0 : c = 0.
  have := H' (prop_mean p 0 0); rewrite code_quad /gauss_kernel subrr !quadE !mulmx0 !dotvE.
  by rewrite big1 ?mul0r ?oppr0 ?add0r // => i _; rewrite mxE mul0r.
have := H' (z + prop_mean p 0 0); rewrite c0 addr0 code_quad /gauss_kernel invmxK cov_inv addrK.
by move: (quad _ _) (quad _ _) => q1 q2; toR => h; lra.
Qed.

End Gain.

(** ** A covariance for which the two densities differ *)
Section Witness.
Definition Uw : 'M[R]_2 := \matrix_(i, j)
  (if i == j then (if i == 0 then 3%:R / 5%:R else - (3%:R / 5%:R)) else 4%:R / 5%:R).
Definition Gw : 'rV[R]_2 := \row_i (if i == 0 then 1 else 3%:R).

Lemma Uw_orth : Uw *m Uw^T = 1%:M.
Proof.
apply/matrixP => i j; rewrite !mxE !big_ord_recl big_ord0 !mxE /=.
case: i => -[|[|//]] ?; case: j => -[|[|//]] ? /=; toR; field.
Qed.

Lemma Gw_pos i : 0 < Gw 0 i.
Proof. by rewrite mxE; case: ifP => _; rewrite ?ltr01 ?ltr0n. Qed.

Lemma Gw_clip i : stable_zero <= Gw 0 i * (2%:R / 2%:R) / (Gw 0 i + 2%:R / 2%:R).
Proof.
have h : 1 / IZR 1000000000000000 <= 1 / 2%:R :> R by toR; lra.
apply: le_trans h _; rewrite mxE; case: ifP => _; toR; lra.
Qed.

Lemma Qw : @Qm 2 Uw Gw <> diag_mx Gw.
Proof.
move/matrixP/(_ 0 1); rewrite !mxE !big_ord_recl big_ord0 !mxE !big_ord_recl !big_ord0 !mxE /= mulr0n.
rewrite !mulr1n !mulr0n; toR; lra.
Qed.
End Witness.
