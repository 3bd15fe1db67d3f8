(** * LimitStep: limits of the formulas of one time step when the prior becomes flat (C65). *)
From Coq Require Import Reals Lra FunctionalExtensionality.
From mathcomp Require Import all_ssreflect all_algebra.
From Verif Require Import RInst Prog Gauss GaussSpec GaussProofs MarginalProofs Kalman KalmanSpec Proposal ProposalProofs CholProofs Resampling Csmc AuxCsmc TpCsmc TpReal
  TwistedProofs DensityTp LimitSpec LimitTheory.

Set Implicit Arguments.
Unset Strict Implicit.
Unset Printing Implicit Defensive.
Import GRing.Theory Num.Theory Order.TTheory.
Local Open Scope ring_scope.

(** ** Vectors and matrices *)
Section Vec.
Variables (p q r : nat).
Implicit Types (x y : nat -> 'M[R]_(p, q)).

Lemma vlim_const (a : 'M[R]_(p, q)) : vlim (fun=> a) a.
Proof. by move=> i j; exact: lim_const. Qed.
Lemma vlim_ext x y a : x =1 y -> vlim x a -> vlim y a.
Proof. by move=> e h i j; apply: lim_ext (h i j) => n; rewrite e. Qed.
Lemma vlim_eq x a b : vlim x a -> a = b -> vlim x b.
Proof. by move=> + <-. Qed.
Lemma vlim_add x y a b : vlim x a -> vlim y b -> vlim (fun n => x n + y n) (a + b).
Proof. by move=> h k i j; rewrite mxE; apply: lim_ext (lim_add (h i j) (k i j)) => n; rewrite mxE. Qed.
Lemma vlim_opp x a : vlim x a -> vlim (fun n => - x n) (- a).
Proof. by move=> h i j; rewrite mxE; apply: lim_ext (lim_opp (h i j)) => n; rewrite mxE. Qed.
Lemma vlim_sub x y a b : vlim x a -> vlim y b -> vlim (fun n => x n - y n) (a - b).
Proof. by move=> h k; apply: vlim_add h (vlim_opp k). Qed.
Lemma vlim_scale (u : nat -> R) c x a : lim u c -> vlim x a -> vlim (fun n => u n *: x n) (c *: a).
Proof. by move=> h k i j; rewrite mxE; apply: lim_ext (lim_mul h (k i j)) => n; rewrite mxE. Qed.
Lemma vlim_mul x a (y : nat -> 'M[R]_(q, r)) b : vlim x a -> vlim y b -> vlim (fun n => x n *m y n) (a *m b).
Proof.
move=> h k i j; rewrite mxE; apply: (lim_ext (u := fun n => \sum_l x n i l * y n l j)) => [n|]; first by rewrite mxE.
by apply: lim_sum => l _; apply: lim_mul.
Qed.
Lemma vlim_tr x a : vlim x a -> vlim (fun n => (x n)^T) a^T.
Proof. by move=> h i j; rewrite mxE; apply: lim_ext (h j i) => n; rewrite mxE. Qed.
Lemma vlim_sum (I : finType) (F : nat -> I -> 'M[R]_(p, q)) (G : I -> 'M[R]_(p, q)) :
  (forall i, vlim (fun n => F n i) (G i)) -> vlim (fun n => \sum_i F n i) (\sum_i G i).
Proof.
move=> H i j; rewrite summxE; apply: (lim_ext (u := fun n => \sum_k F n k i j)) => [n|]; first by rewrite summxE.
by apply: lim_sum => k _; exact: H.
Qed.
End Vec.

Lemma vlim_diag d (v : nat -> 'rV[R]_d) w : vlim v w -> vlim (fun n => diag_mx (v n)) (diag_mx w).
Proof.
move=> h i j; rewrite mxE; apply: (lim_ext (u := fun n => v n 0 i *+ (i == j))) => [n|]; first by rewrite mxE.
by case: (i == j); [exact: h|exact: lim_const].
Qed.
Lemma vlim_row d (v : nat -> 'I_d -> R) w : (forall i, lim (fun n => v n i) (w i)) -> vlim (fun n => \row_i v n i) (\row_i w i).
Proof. by move=> h i j; rewrite mxE; apply: lim_ext (h j) => n; rewrite mxE. Qed.

Section Dot.
Variable d : nat.
Implicit Types (x y : nat -> 'cV[R]_d).
Lemma lim_dotv x y a b : vlim x a -> vlim y b -> lim (fun n => dotv (x n) (y n)) (dotv a b).
Proof. by move=> h k; apply: (vlim_mul (vlim_tr h) k). Qed.
Lemma lim_sqn x a : vlim x a -> lim (fun n => sqn (x n)) (sqn a).
Proof. by move=> h; apply: lim_sum => i _; apply: lim_mul; apply: h. Qed.
Lemma lim_quad (A : nat -> 'M[R]_d) B x a : vlim A B -> vlim x a -> lim (fun n => quad (A n) (x n)) (quad B a).
Proof. by move=> h k; apply: (vlim_mul (vlim_mul (vlim_tr k) h) k). Qed.
Lemma vlim_mean0 N (x : nat -> 'I_N.+1 -> 'cV[R]_d) a : (forall i, vlim (fun n => x n i) (a i)) -> vlim (fun n => mean0 (x n)) (mean0 a).
Proof. by move=> h; apply: vlim_scale; [exact: lim_const|exact: vlim_sum]. Qed.
End Dot.

(** ** The correction of tp_csmc.py is continuous in all its arguments, and is that of l_csmc_f.py when the gain
    is the identity and the offsets vanish. *)
Section LogH.
Variables (d N : nat).
Local Notation vec := 'cV[R]_d.
Local Notation mat := 'M[R]_d.
(** In general, with the limits of the two scaled inverses. *)
Definition log_H_at (xs ds : 'I_N.+1 -> vec) (K A B : mat) (x e phi : vec) : R :=
  - (1 / 2%:R) * (- dotv (x - e) ((A + B) *m (x - e)) + N%:R * dotv (K *m (x + phi)) (B *m (x + phi))
    - 2%:R * (N%:R + 1) * dotv (mean0 xs - mean0 ds) (B *m (e + phi)) + 2%:R * dotv (x - e) (B *m (x + phi))).

Lemma lim_log_H_at (xs ds : nat -> 'I_N.+1 -> vec) (K K_inv : nat -> mat) (delta : nat -> R) (x e phi : nat -> vec)
    xs' ds' K' A B x' e' phi' :
  (forall i, vlim (fun n => xs n i) (xs' i)) -> (forall i, vlim (fun n => ds n i) (ds' i)) -> vlim K K' ->
  vlim (fun n => (delta n)^-1 *: (2%:R *: K_inv n)) A -> vlim (fun n => (delta n)^-1 *: (2%:R *: invmx (1%:M + N%:R *: K n))) B ->
  vlim x x' -> vlim e e' -> vlim phi phi' ->
  lim (fun n => get_log_H_bis (xs n) (ds n) (K n) (K_inv n) (delta n) (x n) (e n) (phi n))
      (log_H_at xs' ds' K' A B x' e' phi').
Proof.
move=> hxs hds hK hKi hG hx he hphi; rewrite /get_log_H_bis /log_H_at.
have hxb := vlim_mean0 hxs; have hdb := vlim_mean0 hds.
have hxd := vlim_sub hx he; have hxp := vlim_add hx hphi; have hep := vlim_add he hphi.
apply: lim_mul; first exact: lim_const.
apply: lim_add; first apply: lim_add; first apply: lim_add.
- by apply: lim_opp; apply: lim_dotv hxd (vlim_mul (vlim_add hKi hG) hxd).
- by apply: lim_mul; [exact: lim_const|apply: lim_dotv; [exact: vlim_mul|exact: vlim_mul]].
- by apply: lim_opp; apply: lim_mul; [exact: lim_const|apply: lim_dotv; [exact: vlim_sub|exact: vlim_mul]].
by apply: lim_mul; [exact: lim_const|apply: lim_dotv => //; exact: vlim_mul].
Qed.

Lemma lim_log_H_bis (xs ds : nat -> 'I_N.+1 -> vec) (K K_inv : nat -> mat) (delta : R) (x e phi : nat -> vec)
    xs' ds' K' K_inv' x' e' phi' :
  (forall i, vlim (fun n => xs n i) (xs' i)) -> (forall i, vlim (fun n => ds n i) (ds' i)) ->
  vlim K K' -> vlim K_inv K_inv' -> vlim (fun n => invmx (1%:M + N%:R *: K n)) (invmx (1%:M + N%:R *: K')) ->
  vlim x x' -> vlim e e' -> vlim phi phi' ->
  lim (fun n => get_log_H_bis (xs n) (ds n) (K n) (K_inv n) delta (x n) (e n) (phi n))
      (get_log_H_bis xs' ds' K' K_inv' delta x' e' phi').
Proof.
move=> hxs hds hK hKi hinv hx he hphi.
have hA := vlim_scale (lim_const delta^-1) (vlim_scale (lim_const 2%:R) hKi).
have hB := vlim_scale (lim_const delta^-1) (vlim_scale (lim_const 2%:R) hinv).
exact: (@lim_log_H_at xs ds K K_inv (fun=> delta) x e phi xs' ds' K' _ _ x' e' phi' hxs hds hK hA hB hx he hphi).
Qed.

Lemma log_H_bis_flat (xs : 'I_N.+1 -> vec) ell x phi : 0 < ell ->
  get_log_H_bis xs (fun=> 0) 1%:M 1%:M ell x 0 phi = @log_H_phi d N ell phi (mean0 xs) x.
Proof.
move=> l0.
rewrite /get_log_H_bis /log_H_phi /=.
have -> : mean0 (fun _ : 'I_N.+1 => 0 : vec) = 0 by rewrite /mean0 big1 // scaler0.
have n0 : (N%:R + 1 : R) != 0 by rewrite -mulrSr pnatr_eq0.
have -> : invmx (1%:M + N%:R *: 1%:M) = (N%:R + 1)^-1%:M :> mat.
  apply: invmx_uniq; rewrite scale_scalar_mx mulr1 -raddfD -scalar_mxM /= [1 + _]addrC divff //.
rewrite !subr0 add0r sqnE !mulmxDl -!scalemxAl !mul1mx !mul_scalar_mx; distr.
rewrite ![dotv phi x]dotvC.
have l1 : ell != 0 by rewrite gt_eqF.
rewrite /mean0; move: (dotv x x) (dotv x phi) (dotv phi phi) => a b c.
rewrite ?mulrSr; move: (dotv (\sum_i xs i) phi) => e'; move: n0 l1 => /eqP; move: (N%:R : R) => k k0 /eqP l1.
by toR; field.
Qed.
End LogH.

(** ** One time step with a flat prior *)
Lemma vlim_conj d (U : 'M[R]_d) (v : nat -> 'rV[R]_d) a : U *m U^T = 1%:M -> (forall i, lim (fun n => v n 0 i) a) ->
  vlim (fun n => U *m diag_mx (v n) *m U^T) a%:M.
Proof.
move=> UU h; rewrite (conj_scalar UU a); apply: vlim_mul (vlim_const _); apply: vlim_mul; first exact: vlim_const.
by apply: vlim_diag => i j; rewrite ord1 mxE.
Qed.

Section Flat.
Variables (d : nat) (Q : Type) (s : step d Q) (kap : nat -> R).
Hypotheses (ok : step_ok s) (k0 : forall n, 0 < kap n) (kinf : to_infinity kap).
Local Notation sk n := (inflate (kap n) s).
Local Notation h := (st_ell s / 2%:R).

Lemma inv_flat : lim (fun n => (kap n)^-1) 0.
Proof. exact: cv_infty_cv_0. Qed.

Lemma UU_ok : st_U s *m (st_U s)^T = 1%:M. Proof. by case: ok. Qed.
Lemma G_ok i : 0 < st_G s 0 i. Proof. by case: ok. Qed.
Lemma l_ok : 0 < st_ell s. Proof. by case: ok. Qed.
Lemma h_ok : 0 < h. Proof. by rewrite divr_gt0 ?l_ok ?ltr0n. Qed.
Lemma Gk_ok n i : 0 < (kap n *: st_G s) 0 i. Proof. by rewrite mxE mulr_gt0 ?G_ok. Qed.

Lemma Kd_flat i : lim (fun n => Kd (kap n *: st_G s) (st_ell s) 0 i) 1.
Proof.
have g0 := G_ok i; have g1 : st_G s 0 i + h * 0 != 0 by rewrite mulr0 addr0 gt_eqF.
have := lim_div g1 (lim_const (st_G s 0 i)) (lim_add (lim_const (st_G s 0 i)) (lim_mul (lim_const h) inv_flat)).
rewrite mulr0 addr0 divff ?gt_eqF // => H; apply: lim_ext H => n; rewrite mxE mxE.
have := k0 n; have := h_ok; move: (st_G s 0 i) h (kap n) g0 => g e k g0 e0 kk.
have a0 : g * k + e != 0 by rewrite lt0r_neq0 // addr_gt0 // mulr_gt0.
have b0 : k != 0 by rewrite lt0r_neq0.
have c0 : g + e * k^-1 != 0 by rewrite lt0r_neq0 // addr_gt0 // divr_gt0.
apply: (mulIf c0); rewrite divfK // [k * g]mulrC; apply: (mulIf a0).
have -> : g * k / (g * k + e) * (g + e * k^-1) * (g * k + e) = g * k * (g + e * k^-1) * ((g * k + e) / (g * k + e)) by Rring.
by rewrite divff // mulr1 -mulrA; congr (_ * _); rewrite mulrDr mulrC mulrCA divff // mulr1.
Qed.

Lemma Kd_gt0 n i : 0 < Kd (kap n *: st_G s) (st_ell s) 0 i.
Proof. by rewrite mxE divr_gt0 ?Gk_ok // addr_gt0 ?Gk_ok ?h_ok. Qed.

Lemma gain_flat : vlim (fun n => step_gain (sk n)) 1%:M.
Proof.
apply: (vlim_ext (x := fun n => st_U s *m diag_mx (Kd (kap n *: st_G s) (st_ell s)) *m (st_U s)^T)) => [n|].
  by rewrite /step_gain /step_prop KE.
by apply: vlim_conj Kd_flat; exact: UU_ok.
Qed.

Lemma K_inv_flat : vlim (fun n => p_K_inv (step_prop (sk n))) 1%:M.
Proof.
apply: (vlim_ext (x := fun n => st_U s *m diag_mx (\row_i (Kd (kap n *: st_G s) (st_ell s) 0 i)^-1) *m (st_U s)^T)) => [n|].
  rewrite /step_prop K_invE ?KE //; try exact: UU_ok; try exact: Gk_ok; try exact: l_ok.
  by rewrite conj_inv //; [exact: UU_ok|move=> i; rewrite lt0r_neq0 ?Kd_gt0].
apply: vlim_conj UU_ok _ => i; rewrite -[1]invr1; apply: lim_ext (lim_inv (oner_neq0 _) (Kd_flat i)) => n; by rewrite [RHS]mxE.
Qed.

Lemma inv_gain_flat N : vlim (fun n => invmx (1%:M + N%:R *: step_gain (sk n))) (invmx (1%:M + N%:R *: 1%:M)).
Proof.
pose v n : 'rV[R]_d := \row_i (1 + N%:R * Kd (kap n *: st_G s) (st_ell s) 0 i)^-1.
have n1 : (1 + N%:R * 1 : R) != 0 by rewrite mulr1 -mulrS pnatr_eq0.
have -> : invmx (1%:M + N%:R *: 1%:M) = (1 + N%:R * 1)^-1%:M :> 'M[R]_d.
  by apply: invmx_uniq; rewrite scale_scalar_mx -raddfD -scalar_mxM /= divff.
apply: (vlim_ext (x := fun n => st_U s *m diag_mx (v n) *m (st_U s)^T)) => [n|].
  rewrite /step_gain /step_prop KE //.
  have e : 1%:M + N%:R *: (st_U s *m diag_mx (Kd (kap n *: st_G s) (st_ell s)) *m (st_U s)^T)
    = st_U s *m diag_mx (\row_i (1 + N%:R * Kd (kap n *: st_G s) (st_ell s) 0 i)) *m (st_U s)^T.
    rewrite {1}(conj_scalar UU_ok 1) scalemxAl scalemxAr -[_ *: diag_mx _]linearZ conj_add //=.
    by congr (_ *m diag_mx _ *m _); apply/rowP => i; rewrite !mxE.
  rewrite e conj_inv //; [|exact: UU_ok|move=> i; rewrite mxE lt0r_neq0 //].
    by congr (_ *m diag_mx _ *m _); apply/rowP => i; rewrite !mxE.
  by rewrite ltr_paddr ?ltr01 // mulr_ge0 ?ler0n // ltW ?Kd_gt0.
apply: vlim_conj UU_ok _ => i; apply: lim_ext (lim_inv n1 (lim_add (lim_const 1) (lim_mul (lim_const N%:R) (Kd_flat i)))) => n.
by rewrite [RHS]mxE.
Qed.

Lemma var_flat i : lim (fun n => Num.max ((kap n *: st_G s) 0 i - (kap n *: st_G s) 0 i ^+ 2 * (1 / ((kap n *: st_G s) 0 i + h))) stable_zero) h.
Proof.
have hz : Num.max (h * 1) stable_zero = h.
  rewrite mulr1; apply/max_idPl; case: ok => _ _ _ _ /(_ i) /le_trans; apply.
  rewrite ler_pdivr_mulr ?addr_gt0 ?G_ok ?h_ok //; rewrite mulrDr [h * _]mulrC ler_addl.
  by rewrite mulr_ge0 // ltW ?h_ok.
have H := lim_max (lim_mul (lim_const h) (Kd_flat i)) (lim_const stable_zero); rewrite hz in H.
apply: lim_ext H => n; congr Num.max; rewrite [Kd _ _ _ _]mxE.
have := Gk_ok n i; have := h_ok; move: ((kap n *: st_G s) 0 i) h => g e e0 g0.
by rewrite expr2; toR; field; toR; lra.
Qed.

Lemma chol_flat : vlim (fun n => p_chol (step_prop (sk n))) (sqrt h *: st_U s).
Proof.
move=> i j; rewrite mxE [_ * _]mulrC; apply: (lim_ext (u := fun n => st_U s i j * sqrt (Num.max ((kap n *: st_G s) 0 j - (kap n *: st_G s) 0 j ^+ 2 * (1 / ((kap n *: st_G s) 0 j + h))) stable_zero))) => [n|].
  by rewrite /step_prop /get_proposal_params /= /cols_times !mxE.
by apply: lim_mul (lim_const _) _; apply: lim_sqrt (var_flat j); rewrite ltW ?h_ok.
Qed.

Lemma chol_inv_flat : vlim (fun n => p_chol_inv (step_prop (sk n))) ((sqrt h)^-1 *: st_U s).
Proof.
move=> i j; rewrite mxE [_ * _]mulrC; apply: (lim_ext (u := fun n => st_U s i j / sqrt (Num.max ((kap n *: st_G s) 0 j - (kap n *: st_G s) 0 j ^+ 2 * (1 / ((kap n *: st_G s) 0 j + h))) stable_zero))) => [n|].
  by rewrite /step_prop /get_proposal_params /= /cols_div !mxE.
apply: lim_mul (lim_const _) _; apply: lim_inv; first by rewrite lt0r_neq0 //; apply/RltE; apply: sqrt_lt_R0; apply/RltE; exact: h_ok.
by apply: lim_sqrt (var_flat j); rewrite ltW ?h_ok.
Qed.

Lemma prior_flat m m' x x' : vlim m m' -> vlim x x' -> lim (fun n => step_prior (sk n) (m n) (x n)) 0.
Proof.
move=> hm hx.
have spdk n : spd (kap n *: st_Q s).
  have [sy po] := step_spd ok; split; first by rewrite /symmetric linearZ /= sy.
  move=> v v0; rewrite /quad -scalemxAr -scalemxAl mxE mulr_gt0 //; exact: po.
apply: (lim_ext (u := fun n => - ((kap n)^-1 * quad (invmx (st_Q s)) (x n - m n) / 2%:R))) => [n|].
  rewrite /step_prior /= mvn_inv_cholesky // /gauss_kernel; congr (- (_ / _)).
  have uQ : kap n *: st_Q s \in unitmx by apply: positive_unit; case: (spdk n).
  have uQ1 : st_Q s \in unitmx by apply: positive_unit; case: (step_spd ok).
  by rewrite invmxZ // /quad -scalemxAr -scalemxAl [RHS]mxE.
have H := lim_opp (lim_mul (lim_mul inv_flat (lim_quad (vlim_const (invmx (st_Q s))) (vlim_sub hx hm))) (lim_const 2%:R^-1)).
by apply: lim_eq H _; rewrite !mul0r oppr0.
Qed.

(** Proposals. *)
Lemma mean_flat u m m' : vlim m m' -> vlim (fun n => prop_mean (step_prop (sk n)) u (m n)) u.
Proof.
move=> hm; apply: (vlim_ext (x := fun n => m n + step_gain (sk n) *m (u - m n))) => [n|].
  by rewrite /prop_mean mulmxA.
have := vlim_add hm (vlim_mul gain_flat (vlim_sub (vlim_const u) hm)).
by rewrite mul1mx addrC subrK.
Qed.

Lemma rvs_flat u m m' e : vlim m m' -> vlim (fun n => prop_rvs (step_prop (sk n)) u (m n) e) (u + sqrt h *: (st_U s *m e)).
Proof. by move=> hm; rewrite scalemxAl; apply: vlim_add (mean_flat u hm) (vlim_mul chol_flat (vlim_const e)). Qed.

(** The log-density of the proposal, up to the factor the code leaves out. *)
Lemma pld_flat z z' : vlim z z' -> lim (fun n => step_pld (sk n) (z n)) (sizes_ld (sizes s) z').
Proof.
move=> hz; rewrite /step_pld /mvn_logpdf /logpdf_with_inv.
have H := lim_mul (lim_const (- (1 / 2%:R))) (lim_sqn (vlim_mul chol_inv_flat hz)).
apply: (lim_ext (u := fun n => - (1 / 2%:R) * sqn (p_chol_inv (step_prop (sk n)) *m z n))) => [n|]; first by rewrite !subr0.
apply: lim_eq H _; rewrite -scalemxAl /sizes_ld sqnE dotvZl dotvZr !sqnE.
have -> : dotv (st_U s *m z') (st_U s *m z') = dotv z' z'.
  by rewrite /dotv trmx_mul -mulmxA [(st_U s)^T *m _]mulmxA UtU ?UU_ok // mul1mx.
have e : (sqrt h)^-1 * ((sqrt h)^-1 * dotv z' z') = h^-1 * dotv z' z'.
  by rewrite mulrA -invfM (_ : sqrt h * sqrt h = h) //; apply: sqrt_sqrt; apply/RleE; rewrite ltW ?h_ok.
by rewrite e /sizes /=; have := l_ok; move: (dotv z' z') (st_ell s) => a ell e0; toR; field; toR; lra.
Qed.
End Flat.

Lemma vlim_conjd d (U : 'M[R]_d) (v : nat -> 'rV[R]_d) (w : 'rV[R]_d) : (forall i, lim (fun n => v n 0 i) (w 0 i)) ->
  vlim (fun n => U *m diag_mx (v n) *m U^T) (U *m diag_mx w *m U^T).
Proof.
move=> h; apply: vlim_mul (vlim_const _); apply: vlim_mul; first exact: vlim_const.
by apply: vlim_diag => i j; rewrite ord1.
Qed.

(** ** One time step with wide auxiliary variables *)
Section Wide.
Variables (d : nat) (Q : Type) (s : step d Q) (kap : nat -> R).
Hypotheses (ok : step_ok s) (k0 : forall n, 0 < kap n) (kinf : to_infinity kap).
Local Notation sk n := (widen (kap n) s).
Local Notation U := (st_U s).
Local Notation G := (st_G s).
Local Notation ell := (st_ell s).
Local Notation rk := (inv_flat kinf).

Lemma lk n : 0 < kap n * ell. Proof. by rewrite mulr_gt0 ?(l_ok ok). Qed.
Lemma hk n : 0 < kap n * ell / 2%:R. Proof. by rewrite divr_gt0 ?lk ?ltr0n. Qed.
Lemma Gh n i : G 0 i + kap n * ell / 2%:R != 0. Proof. by rewrite lt0r_neq0 // addr_gt0 ?hk ?(G_ok ok). Qed.
Lemma knz n : kap n != 0. Proof. by rewrite lt0r_neq0. Qed.

(** The gain times the variance has a limit. *)
Lemma kKd_wide i : lim (fun n => kap n * Kd G (kap n * ell) 0 i) (G 0 i / (ell / 2%:R)).
Proof.
have h0 : 0 < ell / 2%:R := h_ok ok.
have H0 : G 0 i * 0 + ell / 2%:R != 0 by rewrite mulr0 add0r lt0r_neq0.
have H := lim_div H0 (lim_const (G 0 i)) (lim_add (lim_mul (lim_const (G 0 i)) rk) (lim_const (ell / 2%:R))).
rewrite mulr0 add0r in H; apply: lim_ext H => n; rewrite mxE -mulrA.
have g0 := G_ok ok i; have := k0 n; move: (G 0 i) (ell / 2%:R) (kap n) g0 h0 => g h k g0 h0 kk.
have a0 : g + k * h != 0 by rewrite lt0r_neq0 // addr_gt0 // mulr_gt0.
have b0 : k != 0 by rewrite lt0r_neq0.
have c0 : g * k^-1 + h != 0 by rewrite lt0r_neq0 // addr_gt0 // divr_gt0.
apply: (mulIf c0); rewrite divfK //; apply: (mulIf a0).
have -> : k * (g / (g + k * h)) * (g / k + h) * (g + k * h) = g * (k * (g / k + h)) * ((g + k * h) / (g + k * h)) by Rring.
by rewrite divff // mulr1; congr (_ * _); rewrite mulrDr mulrCA divff // mulr1.
Qed.

Lemma Kd_wide i : lim (fun n => Kd G (kap n * ell) 0 i) 0.
Proof.
have H := lim_mul rk (kKd_wide i); rewrite mul0r in H; apply: lim_ext H => n.
by rewrite mulrA mulVf ?mul1r ?knz.
Qed.

Lemma gain_wideE n : step_gain (sk n) = U *m diag_mx (Kd G (kap n * ell)) *m U^T.
Proof. by rewrite /step_gain /step_prop KE. Qed.

Lemma gain_wide : vlim (fun n => step_gain (sk n)) 0.
Proof.
apply: (vlim_ext (x := fun n => U *m diag_mx (Kd G (kap n * ell)) *m U^T)) => [n|]; first by rewrite gain_wideE.
have := @vlim_conj d U (fun n => Kd G (kap n * ell)) 0 (UU_ok ok) Kd_wide; by rewrite raddf0.
Qed.

(** The gain sends auxiliary variables of smaller order than the variance to zero. *)
Lemma gain_aux_wide (u : nat -> 'cV[R]_d) : vlim (fun n => (kap n)^-1 *: u n) 0 -> vlim (fun n => step_gain (sk n) *m u n) 0.
Proof.
move=> hu; pose v n : 'rV[R]_d := \row_i (kap n * Kd G (kap n * ell) 0 i).
have hv : vlim (fun n => U *m diag_mx (v n) *m U^T) (U *m diag_mx (\row_i (G 0 i / (ell / 2%:R))) *m U^T).
  by apply: vlim_conjd => i; rewrite mxE; apply: lim_ext (kKd_wide i) => n; rewrite [RHS]mxE.
have H := vlim_mul hv hu; rewrite mulmx0 in H; apply: vlim_ext H => n.
rewrite gain_wideE -scalemxAr scalemxAl; congr (_ *m _).
rewrite (_ : v n = kap n *: Kd G (kap n * ell)); last by apply/rowP => i; rewrite !mxE.
by rewrite linearZ /= -scalemxAr -scalemxAl scalerA mulVf ?knz // scale1r.
Qed.

Lemma var_wide i : lim (fun n => Num.max (G 0 i - G 0 i ^+ 2 * (1 / (G 0 i + kap n * ell / 2%:R))) stable_zero) (G 0 i).
Proof.
have hz : Num.max (G 0 i - G 0 i * 0) stable_zero = G 0 i.
  rewrite mulr0 subr0; apply/max_idPl; case: ok => _ _ l0 _ /(_ i) /le_trans; apply.
  rewrite ler_pdivr_mulr ?addr_gt0 ?(G_ok ok) ?(h_ok ok) // mulrDr [X in _ <= X]addrC ler_addl.
  by rewrite mulr_ge0 // ltW ?(G_ok ok).
have H := lim_max (lim_sub (lim_const (G 0 i)) (lim_mul (lim_const (G 0 i)) (Kd_wide i))) (lim_const stable_zero); rewrite hz in H.
apply: lim_ext H => n; congr Num.max; congr (_ - _); rewrite mxE.
by rewrite mul1r expr2 mulrA.
Qed.

Lemma chol_wide : vlim (fun n => p_chol (step_prop (sk n))) (U *m diag_mx (\row_i sqrt (G 0 i))).
Proof.
move=> i j; rewrite mul_mx_diag mxE [X in _ * X]mxE.
apply: (lim_ext (u := fun n => U i j * sqrt (Num.max (G 0 j - G 0 j ^+ 2 * (1 / (G 0 j + kap n * ell / 2%:R))) stable_zero))) => [n|].
  by rewrite /step_prop /get_proposal_params /= /cols_times !mxE.
by apply: lim_mul (lim_const _) _; apply: lim_sqrt (var_wide j); rewrite ltW ?(G_ok ok).
Qed.

Lemma turn_chol : cholesky (st_Q s) *m turn s = U *m diag_mx (\row_i sqrt (G 0 i)).
Proof.
have [tr dg fac] := cholesky_ok (step_spd ok).
by rewrite /turn mulmxA mulmxV ?mul1mx //; apply: trig_unit => // i; rewrite lt0r_neq0.
Qed.

Lemma turn_orth : turn s *m (turn s)^T = 1%:M.
Proof.
have [tr dg fac] := cholesky_ok (step_spd ok).
have uL : cholesky (st_Q s) \in unitmx by apply: trig_unit => // i; rewrite lt0r_neq0.
have e : (U *m diag_mx (\row_i sqrt (G 0 i))) *m (U *m diag_mx (\row_i sqrt (G 0 i)))^T = st_Q s.
  rewrite trmx_mul tr_diag_mx !mulmxA -[U *m diag_mx _ *m diag_mx _]mulmxA diagM.
  case: (ok) => _ g0 _ -> _; congr (_ *m diag_mx _ *m _); apply/rowP => i; rewrite !mxE.
  by apply: sqrt_sqrt; apply/RleE; rewrite ltW.
rewrite /turn; set L := cholesky _; set B := U *m _; rewrite trmx_mul mulmxA -[invmx L *m B *m B^T]mulmxA e -fac -/L.
by rewrite mulmxA mulVmx // mul1mx -trmx_mul mulVmx // trmx1.
Qed.

(** Proposals. *)
Lemma mean_wide (u m : nat -> 'cV[R]_d) m' : vlim (fun n => (kap n)^-1 *: u n) 0 -> vlim m m' ->
  vlim (fun n => prop_mean (step_prop (sk n)) (u n) (m n)) m'.
Proof.
move=> hu hm; apply: (vlim_ext (x := fun n => m n + (step_gain (sk n) *m u n - step_gain (sk n) *m m n))) => [n|].
  by rewrite /prop_mean mulmxA mulmxBr.
have := vlim_add hm (vlim_sub (gain_aux_wide hu) (vlim_mul gain_wide hm)).
by rewrite mul0mx subr0 addr0.
Qed.

Lemma rvs_wide (u m : nat -> 'cV[R]_d) m' e : vlim (fun n => (kap n)^-1 *: u n) 0 -> vlim m m' ->
  vlim (fun n => prop_rvs (step_prop (sk n)) (u n) (m n) e) (rvs_of (turn s *m e) m' (cholesky (st_Q s))).
Proof.
move=> hu hm; rewrite /rvs_of mulmxA turn_chol.
by apply: vlim_add (mean_wide hu hm) (vlim_mul chol_wide (vlim_const e)).
Qed.

Lemma K_inv_wide : vlim (fun n => (kap n * ell)^-1 *: (2%:R *: p_K_inv (step_prop (sk n)))) (invmx (st_Q s)).
Proof.
pose v n : 'rV[R]_d := \row_i ((kap n * ell)^-1 * (2%:R * (Kd G (kap n * ell) 0 i)^-1)).
have eQ : invmx (st_Q s) = U *m diag_mx (\row_i (G 0 i)^-1) *m U^T.
  by case: (ok) => UU g0 _ -> _; rewrite conj_inv // => i; rewrite lt0r_neq0.
rewrite eQ; apply: (vlim_ext (x := fun n => U *m diag_mx (v n) *m U^T)) => [n|].
  rewrite /step_prop K_invE //; try exact: (UU_ok ok); try exact: (G_ok ok); try exact: lk.
  rewrite KE //; try exact: (G_ok ok); try exact: lk.
  rewrite conj_inv; [|exact: (UU_ok ok)|by move=> i; rewrite mxE lt0r_neq0 // divr_gt0 ?(G_ok ok) // addr_gt0 ?(G_ok ok) ?hk].
  rewrite scalerA scalemxAl scalemxAr -[_ *: diag_mx _]linearZ /=.
  by congr (_ *m diag_mx _ *m _); apply/rowP => i; rewrite !mxE mulrA.
have l0 := l_ok ok.
apply: vlim_conjd => i; rewrite mxE.
have H := lim_add (lim_mul (lim_const (2%:R / ell)) rk) (lim_const (G 0 i)^-1).
rewrite mulr0 add0r in H; apply: lim_ext H => n; rewrite mxE [Kd _ _ _ _]mxE.
have g0 := G_ok ok i; have := k0 n; move: (G 0 i) (ell) (kap n) g0 l0 => g l k g0 h0 kk.
toR; field; toR; do ?split; try lra.
have : (0 < k * l)%coqR by apply: Rmult_lt_0_compat.
by lra.
Qed.

Lemma G_wide N : vlim (fun n => (kap n * ell)^-1 *: (2%:R *: invmx (1%:M + N%:R *: step_gain (sk n)))) 0.
Proof.
pose v n : 'rV[R]_d := \row_i (1 + N%:R * Kd G (kap n * ell) 0 i)^-1.
have e n : invmx (1%:M + N%:R *: step_gain (sk n)) = U *m diag_mx (v n) *m U^T.
  have e1 : 1%:M + N%:R *: step_gain (sk n) = U *m diag_mx (\row_i (1 + N%:R * Kd G (kap n * ell) 0 i)) *m U^T.
    rewrite gain_wideE {1}(conj_scalar (UU_ok ok) 1) scalemxAl scalemxAr -[_ *: diag_mx _]linearZ conj_add //=.
    by congr (_ *m diag_mx _ *m _); apply/rowP => i; rewrite !mxE.
  rewrite e1 conj_inv; [|exact: (UU_ok ok)|move=> i; rewrite mxE lt0r_neq0 //].
    by congr (_ *m diag_mx _ *m _); apply/rowP => i; rewrite !mxE.
  by rewrite ltr_paddr ?ltr01 // mulr_ge0 ?ler0n // mxE divr_ge0 ?ltW ?(G_ok ok) // addr_gt0 ?(G_ok ok) ?hk.
have n1 : (1 + N%:R * 0 : R) != 0 by rewrite mulr0 addr0 oner_neq0.
have hv : vlim (fun n => invmx (1%:M + N%:R *: step_gain (sk n))) (1 + N%:R * 0)^-1%:M.
  apply: (vlim_ext (x := fun n => U *m diag_mx (v n) *m U^T)) => [n|]; first by rewrite e.
  apply: vlim_conj (UU_ok ok) _ => i; apply: lim_ext (lim_inv n1 (lim_add (lim_const 1) (lim_mul (lim_const N%:R) (Kd_wide i)))) => n.
  by rewrite [RHS]mxE.
have hs : lim (fun n => (kap n * ell)^-1) 0.
  have H := lim_mul rk (lim_const ell^-1); rewrite mul0r in H; apply: lim_ext H => n; by rewrite invfM.
by have := vlim_scale hs (vlim_scale (lim_const 2%:R) hv); rewrite scale0r.
Qed.

(** The correction cancels the prior. *)
Lemma log_H_at_wide N (xs ds : 'I_N.+1 -> 'cV[R]_d) x e phi :
  log_H_at xs ds 0 (invmx (st_Q s)) 0 x e phi = - gauss_kernel (st_Q s) x e.
Proof.
rewrite /log_H_at !mul0mx !addr0 /gauss_kernel opprK /quad -mulmxA -/(dotv (x - e) (invmx (st_Q s) *m (x - e))).
have -> : dotv (0 : 'cV[R]_d) 0 = 0 by rewrite /dotv mulmx0 mxE.
have z v : dotv v (0 : 'cV[R]_d) = 0 by rewrite /dotv mulmx0 mxE.
rewrite !z !mulr0 subr0 !addr0; move: (dotv _ _) => a.
by toR; field.
Qed.

Lemma prior_wide (m x : nat -> 'cV[R]_d) m' x' : vlim m m' -> vlim x x' ->
  lim (fun n => step_prior (sk n) (m n) (x n)) (step_prior s m' x').
Proof.
move=> hm hx; rewrite step_priorE //; apply: (lim_ext (u := fun n => gauss_kernel (st_Q s) (x n) (m n))) => [n|].
  by rewrite -[LHS]step_priorE.
apply: lim_opp; apply: lim_mul (lim_const _); apply: lim_quad; [exact: vlim_const|exact: vlim_sub].
Qed.

Lemma chol_inv_wide : vlim (fun n => p_chol_inv (step_prop (sk n))) (U *m diag_mx (\row_i (sqrt (G 0 i))^-1)).
Proof.
move=> i j; rewrite mul_mx_diag mxE [X in _ * X]mxE.
apply: (lim_ext (u := fun n => U i j / sqrt (Num.max (G 0 j - G 0 j ^+ 2 * (1 / (G 0 j + kap n * ell / 2%:R))) stable_zero))) => [n|].
  by rewrite /step_prop /get_proposal_params /= /cols_div !mxE.
apply: lim_mul (lim_const _) _; apply: lim_inv.
  by rewrite lt0r_neq0 //; apply/RltE; apply: sqrt_lt_R0; apply/RltE; exact: (G_ok ok).
by apply: lim_sqrt (var_wide j); rewrite ltW ?(G_ok ok).
Qed.

(** For a diagonal covariance the density of the proposal tends to that of the prior. *)
Lemma pld_wide (z : nat -> 'cV[R]_d) z' m : st_Q s = diag_mx G -> vlim z z' ->
  lim (fun n => step_pld (sk n) (z n)) (step_prior s m (m + z')).
Proof.
move=> eQ hz; rewrite /step_pld /mvn_logpdf /logpdf_with_inv.
have H := lim_mul (lim_const (- (1 / 2%:R))) (lim_sqn (vlim_mul chol_inv_wide hz)).
apply: (lim_ext (u := fun n => - (1 / 2%:R) * sqn (p_chol_inv (step_prop (sk n)) *m z n))) => [n|]; first by rewrite !subr0.
apply: lim_eq H _; rewrite step_priorE // /gauss_kernel [m + _]addrC addrK eQ.
rewrite (invmx_uniq (diag_unit _)); last by move=> i; rewrite lt0r_neq0 ?(G_ok ok).
set D := diag_mx (\row_i (sqrt _)^-1).
have -> : sqn (U *m D *m z') = quad (D *m D) z'.
  by rewrite sqnE /dotv /quad !trmx_mul !mulmxA -[_ *m U^T *m U]mulmxA UtU ?(UU_ok ok) // mulmx1 tr_diag_mx.
have -> : D *m D = diag_mx (\row_i (G 0 i)^-1).
  rewrite /D diagM; congr diag_mx; apply/rowP => i; rewrite !mxE -invfM; congr (_^-1).
  by apply: sqrt_sqrt; apply/RleE; rewrite ltW ?(G_ok ok).
by move: (quad _ _) => a; toR; field.
Qed.
End Wide.
