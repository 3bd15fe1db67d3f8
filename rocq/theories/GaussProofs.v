(** * GaussProofs: Gaussian identities. *)
From Coq Require Import Reals Lra.
From mathcomp Require Import all_ssreflect all_algebra.
From Verif Require Import RInst Gauss GaussSpec.

Set Implicit Arguments.
Unset Strict Implicit.
Unset Printing Implicit Defensive.
Import GRing.Theory Num.Theory Order.TTheory.
Local Open Scope ring_scope.

(** ** Dot products *)
Section Dot.
Variable d : nat.
Local Notation vec := 'cV[R]_d.
Local Notation mat := 'M[R]_d.
Implicit Types (u v w : vec) (A B : mat) (a : R).

Lemma dotvE u v : dotv u v = \sum_i u i 0 * v i 0.
Proof. by rewrite /dotv mxE; apply: eq_bigr => i _; rewrite mxE. Qed.

Lemma sqnE u : sqn u = dotv u u.
Proof. by rewrite dotvE. Qed.

Lemma dotvC u v : dotv u v = dotv v u.
Proof. by rewrite !dotvE; apply: eq_bigr => i _; rewrite mulrC. Qed.

Lemma dotvDl u v w : dotv (u + v) w = dotv u w + dotv v w.
Proof. by rewrite /dotv linearD /= mulmxDl mxE. Qed.
Lemma dotvDr u v w : dotv w (u + v) = dotv w u + dotv w v.
Proof. by rewrite /dotv mulmxDr mxE. Qed.
Lemma dotvNl u w : dotv (- u) w = - dotv u w.
Proof. by rewrite /dotv linearN mulNmx mxE. Qed.
Lemma dotvNr u w : dotv w (- u) = - dotv w u.
Proof. by rewrite /dotv mulmxN mxE. Qed.
Lemma dotvZl a u w : dotv (a *: u) w = a * dotv u w.
Proof. by rewrite /dotv linearZ /= -scalemxAl mxE. Qed.
Lemma dotvZr a u w : dotv w (a *: u) = a * dotv w u.
Proof. by rewrite /dotv -scalemxAr mxE. Qed.
Lemma dotv0l u : dotv 0 u = 0.
Proof. by rewrite /dotv trmx0 mul0mx mxE. Qed.
Lemma dotv0r u : dotv u 0 = 0.
Proof. by rewrite dotvC dotv0l. Qed.
Lemma dotvBl u v w : dotv (u - v) w = dotv u w - dotv v w.
Proof. by rewrite dotvDl dotvNl. Qed.
Lemma dotvBr u v w : dotv w (u - v) = dotv w u - dotv w v.
Proof. by rewrite dotvDr dotvNr. Qed.

Lemma dotv_suml (I : Type) (r : seq I) (P : pred I) (F : I -> vec) w :
  dotv (\sum_(i <- r | P i) F i) w = \sum_(i <- r | P i) dotv (F i) w.
Proof.
by elim/big_rec2: _ => [|i x y _ <-]; [rewrite dotv0l|rewrite dotvDl].
Qed.
Lemma dotv_sumr (I : Type) (r : seq I) (P : pred I) (F : I -> vec) w :
  dotv w (\sum_(i <- r | P i) F i) = \sum_(i <- r | P i) dotv w (F i).
Proof. by rewrite dotvC dotv_suml; apply: eq_bigr => i _; rewrite dotvC. Qed.

Lemma dotvM A u v : dotv u (A *m v) = dotv (A^T *m u) v.
Proof. by rewrite /dotv trmx_mul trmxK mulmxA. Qed.

Lemma quadE A v : quad A v = dotv v (A *m v).
Proof. by rewrite /quad /dotv mulmxA. Qed.

Lemma dotvv_ge0 u : 0 <= dotv u u.
Proof. by rewrite dotvE sumr_ge0 // => i _; rewrite -expr2 sqr_ge0. Qed.

Lemma dotvv_eq0 u : (dotv u u == 0) = (u == 0).
Proof.
apply/eqP/eqP => [|->]; last by rewrite dotv0l.
move/eqP; rewrite dotvE psumr_eq0 => [/allP H|i _]; last by rewrite -expr2 sqr_ge0.
apply/colP => i; have := H i (mem_index_enum i); rewrite /= -expr2 sqrf_eq0 => /eqP ->.
by rewrite mxE.
Qed.

Lemma sym_dotC A u v : A^T = A -> dotv u (A *m v) = dotv v (A *m u).
Proof. by move=> sA; rewrite dotvM sA dotvC. Qed.
End Dot.

(** Real identities between dot products: distribute, abstract the dot products, decide. *)
Ltac distr := rewrite ?(mulmxBr, mulmxBl, mulmxDl, mulmxDr, mulmxN, mulNmx, mul_scalar_mx);
  rewrite ?(dotvBl, dotvBr, dotvDl, dotvDr, dotvNl, dotvNr, dotvZl, dotvZr).
Ltac gendot := repeat match goal with |- context [@dotv ?d ?u ?v] => move: (@dotv d u v) => ? end.
Ltac dotfield := gendot; toR; field.

Lemma exp_shift a b : exp (a + b) = exp a * exp b.
Proof. exact: exp_plus. Qed.

(** ** Marginalisation by completing the square: if the joint log-density is
    [h n + c - k (u - m n)], with [k] free of [n], its marginal is [exp (h n)]. *)
Lemma complete_square d (J : Type) (joint : J -> 'cV[R]_d -> R) (h : J -> R) (c : R)
    (k : 'cV[R]_d -> R) (m : J -> 'cV[R]_d) :
  (forall n u, joint n u = h n + c + k (u - m n)) -> marginal_of joint h.
Proof.
move=> H I [sc sh ext]; exists (I (fun u => exp (c + k u))) => n.
rewrite mulrC -sc -[RHS](sh (m n)); apply: ext => u.
by rewrite H -addrA exp_shift.
Qed.

(** ** utils/math.py (C24) *)
Section Math.
Variable d : nat.
Local Notation vec := 'cV[R]_d.
Local Notation mat := 'M[R]_d.

Lemma trilE (L : mat) : is_trig_mx L -> tril L = L.
Proof.
move=> /is_trig_mxP tr; apply/matrixP => i j; rewrite mxE; case: leqP => // lt.
by rewrite tr.
Qed.

Lemma trig_unit (L : mat) : is_trig_mx L -> (forall i, L i i != 0) -> L \in unitmx.
Proof.
by move=> tr nz; rewrite unitmxE det_trig // unitfE; apply/prodf_neq0 => i _; exact: nz.
Qed.

Lemma quad_factor (L : mat) v : L \in unitmx ->
  quad (invmx (L *m L^T)) v = sqn (invmx L *m v).
Proof.
move=> Lu; have Lt : L^T \in unitmx by rewrite unitmx_tr.
have -> : invmx (L *m L^T) = (invmx L)^T *m invmx L.
  have H : L *m L^T *m ((invmx L)^T *m invmx L) = 1%:M.
    rewrite mulmxA -(mulmxA L) -trmx_mul mulVmx // trmx1 mulmx1 mulmxV //.
  have Mu : L *m L^T \in unitmx by rewrite unitmx_mul Lu Lt.
  by rewrite -[RHS](mulKmx Mu) H mulmx1.
by rewrite /quad sqnE /dotv trmx_mul !mulmxA.
Qed.

Lemma logpdf_kernel (L : mat) x m : is_trig_mx L -> (forall i, L i i != 0) ->
  logpdf x m L = gauss_kernel (L *m L^T) x m.
Proof.
move=> tr nz; rewrite /logpdf /gauss_kernel quad_factor ?trig_unit // /solve_triangular trilE //.
by move: (sqn _) => s; toR; field.
Qed.

Lemma logpdf_inv_kernel (L : mat) x m : L \in unitmx ->
  logpdf_with_inv x m (invmx L) = gauss_kernel (L *m L^T) x m.
Proof.
move=> Lu; rewrite /logpdf_with_inv /gauss_kernel quad_factor //.
by move: (sqn _) => s; toR; field.
Qed.

Lemma ln_prod (I : Type) (r : seq I) (F : I -> R) : (forall i, 0 < F i) ->
  ln (\prod_(i <- r) F i) = \sum_(i <- r) ln (F i).
Proof.
move=> pos; suff [-> _] : ln (\prod_(i <- r) F i) = \sum_(i <- r) ln (F i) /\ 0 < \prod_(i <- r) F i by [].
elim/big_rec2: _ => [|i x y _ [<- y0]]; first by rewrite ltr01; split=> //; exact: ln_1.
split; last by rewrite mulr_gt0.
by apply: ln_mult; apply/RltE.
Qed.

Lemma constantE (L : mat) : is_trig_mx L -> (forall i, L i i != 0) ->
  get_constant L = ln (\det (L *m L^T)) / 2%:R + d%:R * ln (2%:R * PI) / 2%:R.
Proof.
move=> tr nz; rewrite /get_constant /tril_log_det det_mulmx det_tr det_trig //.
have -> : (\prod_i L i i) * (\prod_i L i i) = \prod_i (`|L i i| * `|L i i|).
  rewrite -big_split /=; apply: eq_bigr => i _.
  by rewrite -!expr2 real_normK ?num_real.
rewrite ln_prod; last by move=> i; rewrite mulr_gt0 ?normr_gt0.
have -> : \sum_i ln (`|L i i| * `|L i i|) = 2%:R * \sum_i ln `|L i i|.
  rewrite mulr_sumr; apply: eq_bigr => i _; rewrite mulrDl mul1r.
  by rewrite [LHS]ln_mult //; apply/RltE; rewrite normr_gt0.
move: (\sum_i _) (ln (2%:R * PI)) => a b.
by move: d%:R => c; toR; field.
Qed.

Lemma mvn_logpdf_spec (L : mat) x m ci : is_trig_mx L -> (forall i, L i i != 0) ->
  (ci = None \/ ci = Some (invmx L)) ->
  mvn_logpdf x m L ci true = gauss_logpdf (L *m L^T) x m
  /\ mvn_logpdf x m L ci false = gauss_kernel (L *m L^T) x m.
Proof.
move=> tr nz e.
have -> : mvn_logpdf x m L ci false = gauss_kernel (L *m L^T) x m.
  by case: e => ->; rewrite /mvn_logpdf subr0 ?logpdf_kernel ?logpdf_inv_kernel ?trig_unit.
split=> //; rewrite /gauss_logpdf -addrA -opprD -constantE //.
by case: e => ->; rewrite /mvn_logpdf ?logpdf_kernel ?logpdf_inv_kernel ?trig_unit.
Qed.

Lemma quadN (A : mat) v : quad A (- v) = quad A v.
Proof. by rewrite !quadE mulmxN dotvNl dotvNr opprK. Qed.

Lemma mvn_swap x m (L : mat) ci b : mvn_logpdf x m L ci b = mvn_logpdf m x L ci b.
Proof.
have sqN k (A : 'M[R]_(k, d)) : sqn (A *m (x - m)) = sqn (A *m (m - x)).
  by rewrite -opprB mulmxN !sqnE dotvNl dotvNr opprK.
by rewrite /mvn_logpdf /logpdf_with_inv /logpdf /solve_triangular; case: ci => [A|]; rewrite sqN.
Qed.

(** Density of a sample: the draw is standard normal seen through the factor. *)
Lemma rvs_density (L : mat) eps m ci : is_trig_mx L -> (forall i, L i i != 0) ->
  (ci = None \/ ci = Some (invmx L)) ->
  mvn_logpdf (rvs_of eps m L) m L ci false = - (1 / 2%:R) * sqn eps.
Proof.
move=> tr nz e; have Lu := trig_unit tr nz.
have r : rvs_of eps m L - m = L *m eps by rewrite /rvs_of addrC addKr.
by case: e => ->; rewrite /mvn_logpdf subr0 /logpdf_with_inv /logpdf /solve_triangular r ?trilE // mulKmx.
Qed.

End Math.

Lemma norm_logpdf_spec (x loc scale : R) : 0 < scale ->
  let S : 'M[R]_1 := scale *: 1%:M in
  (forall b, norm_logpdf x loc scale b = mvn_logpdf (x%:M : 'cV[R]_1) loc%:M S None b).
Proof.
move=> sp S b.
have sS : S 0 0 = scale by rewrite /S !mxE mulr1.
have tr : is_trig_mx S by apply/is_trig_mxP => i j; rewrite !ord1.
have nz i : S i i != 0 by rewrite ord1 sS lt0r_neq0.
have e : logpdf (x%:M : 'cV[R]_1) loc%:M S = - (1 / 2%:R) * ((x - loc) / scale) ^+ 2.
  rewrite /logpdf /solve_triangular trilE // /S invmxZ ?unitmx1 ?unitfE ?lt0r_neq0 //.
    rewrite invmx1 -scalemxAl mul1mx -raddfB /= sqnE dotvZl dotvZr dotvE big_ord1 !mxE.
    by rewrite mulr1n -/(_ / _) expr2; Rring.
  by rewrite -[_ *: _]/(S) trig_unit.
rewrite /mvn_logpdf e /norm_logpdf; case: b; rewrite ?subr0 //; congr (_ - _).
rewrite /get_constant /tril_log_det big_ord1 sS gtr0_norm //.
have P2 : Rlt 0 (2%:R * PI) by have := PI_RGT_0; toR; lra.
have sP := sqrt_lt_R0 _ P2.
have -> : ln (2%:R * PI) = 2%:R * ln (sqrt (2%:R * PI)).
  rewrite -[X in ln X](sqrt_def _ (Rlt_le _ _ P2)) ln_mult //.
  by move: (ln _) => l; toR; ring.
rewrite [LHS]ln_mult //; last exact/RltE.
move: (ln scale) (ln (sqrt _)) => a c; toR; field.
Qed.
