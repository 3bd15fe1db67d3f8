(** * Integral: iterating the integral of [NewtonIntegral] over the coordinates of R^d.
    Used only to show that the hypotheses about integrals are met.  Nothing of /repo is modelled here. *)
From Coq Require Import Reals Lra.
From mathcomp Require Import all_ssreflect all_algebra.
From Verif Require Import RInst Gauss GaussSpec GaussProofs MarginalProofs KalmanSpec KalmanProofs NewtonIntegral.

Set Implicit Arguments.
Unset Strict Implicit.
Unset Printing Implicit Defensive.
Import GRing.Theory Num.Theory Order.TTheory.
Local Open Scope ring_scope.

Fixpoint nintd (d : nat) : ('cV[R]_d -> R) -> R :=
  match d return ('cV[R]_d -> R) -> R with
  | 0 => fun f => f 0
  | d'.+1 => fun f => nint (fun x => nintd (fun v : 'cV[R]_d' => f (col_mx (x%:M : 'cV[R]_1) v)))
  end.

Lemma nintd_ext d (f g : 'cV[R]_d -> R) : (forall u, f u = g u) -> nintd f = nintd g.
Proof.
elim: d f g => [|d IH] f g e /=; first exact: e.
by apply: nint_ext => x; apply: IH => v; apply: e.
Qed.

Lemma nintd_scale d c (f : 'cV[R]_d -> R) : nintd (fun u => c * f u) = c * nintd f.
Proof.
elim: d f => [|d IH] f //=.
rewrite -[RHS]/(Rmult c (nint _)) -nint_scale; apply: nint_ext => x; exact: IH.
Qed.

Lemma nintd_shift d (a : 'cV[R]_d) (f : 'cV[R]_d -> R) : nintd (fun u => f (u - a)) = nintd f.
Proof.
elim: d a f => [|d IH] a f /=; first by congr f; apply/matrixP => -[].
pose a1 : 'cV[R]_1 := usubmx (a : 'cV[R]_(1 + d)); pose a2 : 'cV[R]_d := dsubmx (a : 'cV[R]_(1 + d)).
rewrite -(nint_shift (fun x => nintd (fun v : 'cV_d => f (col_mx x%:M v))) (a1 0 0)).
apply: nint_ext => x.
rewrite -(IH a2 (fun v => f (col_mx ((x - a1 0 0)%:M : 'cV[R]_1) v))); apply: nintd_ext => v; congr f.
have -> : a = col_mx a1 a2 by rewrite vsubmxK.
transitivity ((col_mx x%:M v : 'cV[R]_(1 + d)) - col_mx a1 a2) => //.
rewrite opp_col_mx add_col_mx; congr (col_mx (_ : 'cV[R]_1) _).
by apply/matrixP => i j; rewrite !ord1 !mxE eqxx.
Qed.

Lemma nintd_ge0 d (f : 'cV[R]_d -> R) : (forall u, 0 <= f u) -> 0 <= nintd f.
Proof.
elim: d f => [|d IH] f f0 /=; first exact: f0.
apply/RleE; apply: nint_ge0 => x; apply/RleE.
exact: (IH (fun v => f (col_mx (x%:M : 'cV[R]_1) v)) (fun v => f0 _)).
Qed.

Lemma nintd_ti d : translation_invariant (@nintd d).
Proof. by split; [exact: nintd_scale | exact: nintd_shift | exact: nintd_ext]. Qed.

Lemma block_quad d (w : 'M[R]_1) (b : 'cV[R]_d) (C : 'M[R]_d) x v :
  quad (block_mx w b^T b C : 'M[R]_(1 + d)) (col_mx (x%:M : 'cV[R]_1) v)
  = w 0 0 * (x * x) + 2%:R * x * dotv v b + quad C v.
Proof.
rewrite quadE /dotv tr_col_mx mul_block_col mul_row_col tr_scalar_mx mul_scalar_mx !mulmxDr.
have D (A B : 'M[R]_1) : (A + B) 0 0 = A 0 0 + B 0 0 by rewrite mxE.
have Z (a : R) (A : 'M[R]_1) : (a *: A) 0 0 = a * A 0 0 by rewrite mxE.
have -> : b *m (x%:M : 'cV[R]_1) = x *: b by rewrite -mul_mx_scalar.
rewrite D Z D D -scalemxAr Z mul_mx_scalar Z -/(dotv b v) -/(dotv v b) dotvC /quad mulmxA.
move: (dotv v b) ((v^T *m C *m v) 0 0) (w 0 0) => p q w'.
Rring.
Qed.

Lemma schur d (W : 'M[R]_(1 + d)) : spd W -> exists (s : R) (C : 'M[R]_d) (k : 'cV[R]_d), [/\ 0 < s, spd C
  & forall x v, quad W (col_mx (x%:M : 'cV[R]_1) v) = quad C (v - x *: k) + s * (x * x)].
Proof.
move=> [Ws Wp].
pose w := ulsubmx W; pose b := dlsubmx W; pose C := drsubmx W.
have Wb : W = block_mx w b^T b C.
  rewrite -[LHS]submxK; congr block_mx; rewrite /b trmx_dlsub; by rewrite [W^T]Ws.
have Cs : symmetric C by rewrite /symmetric trmx_drsub [W^T]Ws.
have Cp : positive C.
  move=> v v0; have := Wp (col_mx (0%:M : 'cV[R]_1) v).
  rewrite [in quad _ _]Wb block_quad !(mulr0, mul0r, add0r); apply.
  by apply: contra_neq v0 => /(congr1 dsubmx); rewrite col_mxKd linear0.
have Cu : C \in unitmx by apply: positive_unit.
exists (w 0 0 - quad (invmx C) b), C, (- (invmx C *m b)).
have e x v : quad W (col_mx (x%:M : 'cV[R]_1) v)
   = quad C (v - x *: - (invmx C *m b)) + (w 0 0 - quad (invmx C) b) * (x * x).
  rewrite [in LHS]Wb block_quad scalerN opprK quadDv // -scalemxAr mulKVmx // dotvZr [quad C (x *: _)]quadE -scalemxAr dotvZl dotvZr -quadE.
  have -> : quad C (invmx C *m b) = quad (invmx C) b by rewrite !quadE mulKVmx // dotvC.
  move: (dotv v b) (quad C v) (w 0 0) (quad (invmx C) b) => p q w' r.
  Rring.
split=> //.
have := Wp (col_mx (1%:M : 'cV[R]_1) (- (invmx C *m b))).
rewrite e scale1r subrr; rewrite {1}/quad mulmx0 mxE add0r mulr1 mulr1; apply.
apply/negP => /eqP /(congr1 usubmx); rewrite col_mxKu linear0 => /matrixP /(_ 0 0).
by rewrite !mxE eqxx => /eqP; rewrite oner_eq0.
Qed.

Lemma nintd_gauss d (W : 'M[R]_d) : spd W -> 0 < nintd (fun u => exp (- (quad W u / 2%:R))).
Proof.
elim: d W => [|d IH] W sW /=; first by apply/RltE; exact: exp_pos.
have [s [C [k [s0 sC e]]]] := @schur d W sW.
pose K := nintd (fun v => exp (- (quad C v / 2%:R))).
have K0 : 0 < K by exact: IH.
have [|L nL L0] := @bell_exists (/ s)%coqR 0%coqR; first by apply: Rinv_0_lt_compat; apply/RltE.
move: nL; set g := (X in newton X _) => nL.
have -> : nint (fun x => nintd (fun v : 'cV[R]_d => exp (- (quad W (col_mx (x%:M : 'cV[R]_1) v) / 2%:R))))
    = (K * nint g)%coqR.
  rewrite -nint_scale; apply: nint_ext => x.
  rewrite /K -[nintd _ in RHS](nintd_shift (x *: k)) Rmult_comm.
  rewrite -[RHS]/(@GRing.mul R_ringType _ _) -nintd_scale.
  apply: nintd_ext => v; rewrite e /g -[RHS]/(Rmult _ _) -exp_plus; congr exp.
  have s1 : s <> 0 by move=> s1; rewrite s1 ltxx in s0.
  have t2 : IZR 2 = (1 + 1)%coqR by [].
  move: (quad C _) t2 s1; move: (IZR 2) => t q ->; clear; toR => s1; field; exact: s1.
rewrite (nintE nL); apply: mulr_gt0 => //; exact/RltE.
Qed.

(** What [translation_invariant] asks for is met by an integral for which every Gaussian density has
    a positive integral. *)
Lemma integral_exists d : exists I : ('cV[R]_d -> R) -> R, [/\ translation_invariant I,
  forall g, (forall u, 0 <= g u) -> 0 <= I g
  & forall S m, spd S -> 0 < I (fun u => exp (gauss_kernel S u m))].
Proof.
exists (@nintd d); split; [exact: nintd_ti|exact: nintd_ge0|].
move=> S m sS; rewrite /gauss_kernel (nintd_shift m (fun u => exp (- (quad (invmx S) u / 2%:R)))).
by apply: nintd_gauss; apply: spd_inv.
Qed.
