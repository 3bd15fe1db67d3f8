(** * CholProofs: the Cholesky recursion factors every symmetric positive matrix. *)
From Coq Require Import Reals Lra.
From mathcomp Require Import all_ssreflect all_algebra.
From Verif Require Import RInst Gauss GaussSpec GaussProofs MarginalProofs Kalman KalmanSpec.

Set Implicit Arguments.
Unset Strict Implicit.
Unset Printing Implicit Defensive.
Import GRing.Theory Num.Theory Order.TTheory.
Local Open Scope ring_scope.

Lemma half_sumE n (A : 'M[R]_n) : symmetric A -> half_sum A = A.
Proof.
rewrite /half_sum /symmetric => ->; rewrite -mulr2n -scaler_nat scalerA.
by rewrite mul1r mulVf ?scale1r // pnatr_eq0.
Qed.

Section Block.
Variables (n : nat) (A : 'M[R]_(1 + n)).
Hypotheses (sA : symmetric A) (pA : positive A).
Local Notation a := (A 0 0).
Local Notation v := (dlsubmx A).
Local Notation B := (drsubmx A).

Lemma blockE : A = block_mx (a%:M : 'M[R]_1) v^T v B.
Proof.
rewrite -[LHS]submxK; congr block_mx; last by rewrite -{1}sA trmx_dlsub ?trmxK.
by rewrite [LHS]mx11_scalar !mxE; congr (A _ _)%:M; apply: val_inj.
Qed.

Definition schur : 'M[R]_n := B - a^-1 *: (v *m v^T).

Lemma pivot_gt0 : 0 < a.
Proof.
have := @pA (delta_mx 0 0); rewrite /quad trmx_delta -rowE -colE !mxE; apply.
by apply/eqP => /matrixP /(_ 0 0) /eqP; rewrite !mxE !eqxx oner_eq0.
Qed.

Lemma schur_sym : symmetric schur.
Proof.
rewrite /symmetric /schur linearB /= linearZ /= trmx_mul trmxK; congr (_ - _).
by rewrite trmx_drsub sA.
Qed.

Lemma schur_pos : positive schur.
Proof.
move=> w w0; pose s : 'M[R]_1 := - (a^-1 *: (v^T *m w)).
suff -> : quad schur w = quad A (col_mx s w).
  apply: pA; apply: contra w0 => /eqP e; apply/eqP.
  by have := congr1 (@dsubmx _ 1 n 1) e; rewrite col_mxKd => ->; apply/matrixP => i j; rewrite !mxE.
have e : A *m col_mx s w = col_mx 0 (schur *m w).
  rewrite [in LHS]blockE mul_block_col mul_scalar_mx; congr col_mx.
    by rewrite scalerN scalerA divff ?gt_eqF ?pivot_gt0 // scale1r addNr.
  by rewrite /schur mulmxBl addrC mulmxN -scalemxAr -scalemxAl mulmxA.
by rewrite /quad -!mulmxA e tr_col_mx mul_row_col mulmx0 add0r.
Qed.
End Block.

Lemma block_diag_gt0 n (a : 'M[R]_1) u v (B : 'M[R]_n) :
  (forall i, 0 < a i i) -> (forall i, 0 < B i i) -> forall i : 'I_(1 + n), 0 < block_mx a u v B i i.
Proof.
by move=> ha hB i; rewrite -[i]splitK; case: (split i) => j /=; rewrite ?block_mxEul ?block_mxEdr.
Qed.

Lemma chol_rec_ok n (A : 'M[R]_n) : spd A ->
  [/\ is_trig_mx (chol_rec A), forall i, 0 < chol_rec A i i & chol_rec A *m (chol_rec A)^T = A].
Proof.
elim: n A => [|n IH] A [sA pA]; first by split; [apply/is_trig_mxP; case|case|apply/matrixP; case].
have [tr dg fac] := IH _ (conj (schur_sym sA) (schur_pos sA pA)).
have a0 := pivot_gt0 pA; have l0 : 0 < sqrt (A 0 0) by apply/RltE/sqrt_lt_R0/RltE.
have ll : sqrt (A 0 0) * sqrt (A 0 0) = A 0 0 by apply: sqrt_sqrt; apply/RleE/ltW.
have e : chol_rec A = block_mx ((sqrt (A 0 0))%:M : 'M[R]_1) 0 ((sqrt (A 0 0))^-1 *: dlsubmx (A : 'M[R]_(1 + n))) (chol_rec (schur A)) by [].
rewrite e; split.
- by rewrite (@is_trig_block_mx _ 1 n 1 n) // eqxx tr andbT scalar_mx_is_trig.
- by apply: block_diag_gt0 => // i; rewrite mxE ord1 eqxx mulr1n.
- rewrite (@tr_block_mx _ 1 n 1 n) (@mulmx_block _ 1 n 1 n 1 n) !trmx0 !mulmx0 !mul0mx !addr0 fac.
  rewrite tr_scalar_mx linearZ /= -scalar_mxM ll mul_scalar_mx scalerA mul_mx_scalar scalerA divff ?gt_eqF // !scale1r.
  rewrite -scalemxAl -scalemxAr scalerA -invfM ll /schur addrC subrK.
  by rewrite [in RHS](blockE sA).
Qed.

Lemma cholesky_ok n (A : 'M[R]_n) : spd A ->
  [/\ is_trig_mx (cholesky A), forall i, 0 < cholesky A i i & cholesky A *m (cholesky A)^T = A].
Proof. by move=> h; rewrite /cholesky half_sumE; [exact: chol_rec_ok|case: h]. Qed.

Lemma spd_det_gt0 n (A : 'M[R]_n) : spd A -> 0 < \det A.
Proof.
move=> /cholesky_ok [tr dg <-]; rewrite det_mulmx det_tr det_trig // mulr_gt0 //; exact: prodr_gt0.
Qed.

Lemma mvn_cholesky n (A : 'M[R]_n) x m : spd A -> mvn_logpdf x m (cholesky A) None true = gauss_logpdf A x m.
Proof.
move=> h; have [tr dg fac] := cholesky_ok h.
have nz i : cholesky A i i != 0 by rewrite gt_eqF.
by have [-> _] := mvn_logpdf_spec x m tr nz (or_introl erefl); rewrite fac.
Qed.

Lemma cho_solveE n k (A : 'M[R]_n) (B : 'M[R]_(n, k)) : spd A -> cho_solve (cholesky A) B = invmx A *m B.
Proof.
move=> h; have [tr dg fac] := cholesky_ok h; have Au := positive_unit h.2.
have nz i : cholesky A i i != 0 by rewrite gt_eqF.
have Lu := trig_unit tr nz; have Ltu : (cholesky A)^T \in unitmx by rewrite unitmx_tr.
rewrite /cho_solve trilE // -[LHS](mulKmx Au); congr (_ *m _).
by rewrite -{1}fac -!mulmxA mulKVmx // mulKVmx.
Qed.

(** There is only one such factor. *)
Lemma block_diag_inv n (a : 'M[R]_1) u v (B : 'M[R]_n) :
  (forall i : 'I_(1 + n), 0 < block_mx a u v B i i) -> 0 < a 0 0 /\ forall i, 0 < B i i.
Proof.
move=> h; split=> [|i]; first by have := h (lshift n 0); rewrite block_mxEul.
by have := h (rshift 1 i); rewrite block_mxEdr.
Qed.

Lemma chol_step n (l m : 'M[R]_1) (v x : 'cV[R]_n) (L' M' : 'M[R]_n) : 0 < l 0 0 -> 0 < m 0 0 ->
  block_mx l 0 v L' *m (block_mx l 0 v L')^T = block_mx m 0 x M' *m (block_mx m 0 x M')^T ->
  [/\ l = m, v = x & L' *m L'^T = M' *m M'^T].
Proof.
move=> l0 m0; rewrite !tr_block_mx !mulmx_block !trmx0 !mulmx0 !mul0mx !addr0.
move=> /eq_block_mx [e1 _ e3 e4].
have lm : l = m.
  apply/matrixP => i j; rewrite !ord1; move: e1 => /matrixP /(_ 0 0); rewrite !mxE !big_ord1 !mxE => e.
  by move: e; rewrite -!expr2 => /eqP; rewrite eqr_expn2 // ?ltW // => /eqP.
have vx : v = x.
  move: e3; rewrite lm [m^T]mx11_scalar !mul_mx_scalar !mxE => /(congr1 (fun A => (m 0 0)^-1 *: A)).
  by rewrite !scalerA mulVf ?scale1r // gt_eqF.
by move: e4; rewrite lm vx => /addrI e4.
Qed.

Lemma chol_unique n (L M : 'M[R]_n) : is_trig_mx L -> is_trig_mx M ->
  (forall i, 0 < L i i) -> (forall i, 0 < M i i) -> L *m L^T = M *m M^T -> L = M.
Proof.
elim: n L M => [|n IH] L M; first by move=> *; apply/matrixP; case.
rewrite -[L](@submxK _ 1 n 1 n) -[M](@submxK _ 1 n 1 n) !(@is_trig_block_mx _ 1 n 1 n) //.
move=> /and3P[/eqP -> _ trL] /and3P[/eqP -> _ trM].
move=> /(@block_diag_inv n) [l0 dL] /(@block_diag_inv n) [m0 dM] /(@chol_step n _ _ _ _ _ _ l0 m0) [-> ->].
by move=> /(IH _ _ trL trM dL dM) ->.
Qed.

Lemma cholesky_iff n (A L : 'M[R]_n) : spd A ->
  (is_trig_mx L /\ (forall i, 0 < L i i) /\ L *m L^T = A) <-> L = cholesky A.
Proof.
move=> /cholesky_ok [tr dg fac]; split=> [[h1 [h2 h3]]|->]; last by [].
by apply: chol_unique => //; rewrite fac.
Qed.
