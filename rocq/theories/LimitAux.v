(** * LimitAux: auxiliary variables grow more slowly than their variance, and the clipped proposal with a
    vanishing prior (C65). *)
From Coq Require Import Reals Lra FunctionalExtensionality.
From mathcomp Require Import all_ssreflect all_algebra.
From Verif Require Import RInst Prog Gauss GaussSpec GaussProofs Resampling Spec Csmc AuxCsmc Kalman KalmanSpec Proposal ProposalProofs CholProofs TpCsmc TpReal
  DensityTp LimitSpec LimitTheory LimitCsmc LimitStep LimitTp LimitPrior.

Set Implicit Arguments.
Unset Strict Implicit.
Unset Printing Implicit Defensive.
Import GRing.Theory Num.Theory Order.TTheory.
Local Open Scope ring_scope.

Section Aux.
Variables (d : nat) (Q : Type).
Local Notation vec := 'cV[R]_d.
Local Notation step := (step d Q).
Variables (g0 : vec -> vec) (gt : vec -> vec -> Q -> vec) (kap : nat -> R).
Hypotheses (k0 : forall m, 0 < kap m) (kinf : to_infinity kap).

Lemma std_slower (s : step) : step_ok s -> lim (fun m => (kap m)^-1 * std_of (widen (kap m) s)) 0.
Proof.
move=> ok; have h0 := h_ok ok.
have z0 : (0 : R) <= 0 by [].
have H := lim_mul (lim_const (sqrt (st_ell s / 2%:R))) (lim_sqrt z0 (inv_flat kinf)).
rewrite sqrt_0 mulr0 in H; apply: lim_ext H => m; rewrite /std_of /=.
have kk := k0 m; set l := st_ell s / 2%:R; have -> : kap m * st_ell s / 2%:R = kap m * l by rewrite mulrA.
have kr : (0 <= kap m)%coqR by apply/RleE; rewrite ltW.
have lr : (0 <= l)%coqR by apply/RleE; rewrite ltW.
have e1 : sqrt (kap m * l) = sqrt (kap m) * sqrt l := sqrt_mult _ _ kr lr.
have e2 : (kap m)^-1 = sqrt (kap m)^-1 * sqrt (kap m)^-1.
  by rewrite [RHS]sqrt_sqrt //; apply/RleE; rewrite invr_ge0 ltW.
have e3 : sqrt (kap m)^-1 * sqrt (kap m) = 1.
  rewrite -[LHS]sqrt_mult ?[LHS]/(sqrt ((kap m)^-1 * kap m)); last by [].
    by rewrite mulVf ?lt0r_neq0 //; exact: sqrt_1.
  by apply/RleE; rewrite invr_ge0 ltW.
rewrite e1 [in RHS]e2; transitivity (sqrt (kap m)^-1 * ((sqrt (kap m)^-1 * sqrt (kap m)) * sqrt l)); last by rewrite !mulrA.
by rewrite e3 mul1r mulrC.
Qed.

Lemma point_slower (s : step) (x e : vec) : step_ok s -> slower kap (fun m => x + std_of (widen (kap m) s) *: e) s.
Proof.
move=> ok; have H := vlim_add (vlim_scale (inv_flat kinf) (vlim_const x)) (vlim_scale (std_slower ok) (vlim_const e)).
rewrite !scale0r addr0 in H; apply: vlim_ext H => m; by rewrite scalerDr scalerA.
Qed.

Lemma aux_0_slower (s0 : step) (x0 e0 : vec) : step_ok s0 -> slower kap (fun m => aux_0 g0 (widen (kap m) s0) x0 e0) s0.
Proof. by move=> ok; exact: (@point_slower s0 (x0 + sizes_step (sizes s0) (g0 x0)) e0 ok). Qed.

Lemma aux_t_slower (ss : seq step) (x0 : vec) (xs es : seq vec) : (forall s, List.In s ss -> step_ok s) ->
  size xs = size ss -> size es = size ss ->
  seq_lim (slower kap) (fun m => aux_t gt [seq widen (kap m) s | s <- ss] x0 xs es) ss.
Proof.
elim: ss x0 xs es => [|s ss IH] x0 [|x xs] [|e es] ok //= [exs] [ees].
eexists; eexists; split; [by move=> m; rewrite /aux_t /=; reflexivity| |].
  by apply: (@point_slower s (x + sizes_step (sizes s) (gt x0 x (st_q s))) e); apply: ok; left.
by apply: IH => // s' h; apply: ok; right.
Qed.
End Aux.

Section Vanish.
Variables (d : nat) (Q : Type) (s : step d Q) (kap : nat -> R).
Hypotheses (ok : step_ok s) (k0 : forall n, 0 < kap n) (kz : lim kap 0).
Local Notation sk n := (inflate (kap n) s).
Local Notation h := (st_ell s / 2%:R).

Lemma Kd_vanish i : lim (fun n => Kd (kap n *: st_G s) (st_ell s) 0 i) 0.
Proof.
have h0 := h_ok ok; have H0 : 0 * st_G s 0 i + h != 0 by rewrite mul0r add0r lt0r_neq0.
have hg := lim_mul kz (lim_const (st_G s 0 i)).
have H := lim_div H0 hg (lim_add hg (lim_const h)).
by rewrite !mul0r in H; apply: lim_ext H => n; rewrite mxE mxE.
Qed.

Lemma gain_vanish : vlim (fun n => step_gain (sk n)) 0.
Proof.
apply: (vlim_ext (x := fun n => st_U s *m diag_mx (Kd (kap n *: st_G s) (st_ell s)) *m (st_U s)^T)) => [n|].
  by rewrite /step_gain /step_prop KE.
by have := @vlim_conj d (st_U s) (fun n => Kd (kap n *: st_G s) (st_ell s)) 0 (UU_ok ok) Kd_vanish; rewrite raddf0.
Qed.

Lemma sz_gt0 : 0 < stable_zero.
Proof. by rewrite /stable_zero; toR; lra. Qed.

Lemma chol_vanish : vlim (fun n => p_chol (step_prop (sk n))) (sqrt stable_zero *: st_U s).
Proof.
move=> i j; rewrite mxE [_ * _]mulrC.
apply: (lim_ext (u := fun n => st_U s i j * sqrt (Num.max ((kap n *: st_G s) 0 j - (kap n *: st_G s) 0 j ^+ 2 * (1 / ((kap n *: st_G s) 0 j + h))) stable_zero))) => [n|].
  by rewrite /step_prop /get_proposal_params /= /cols_times !mxE.
apply: lim_mul (lim_const _) _; apply: lim_sqrt; first by rewrite ltW ?sz_gt0.
have hz : Num.max (h * 0) stable_zero = stable_zero by rewrite mulr0; apply/max_idPr; rewrite ltW ?sz_gt0.
have H := lim_max (lim_mul (lim_const h) (Kd_vanish j)) (lim_const stable_zero); rewrite hz in H.
apply: lim_ext H => n; congr Num.max; rewrite [Kd _ _ _ _]mxE.
have := Gk_ok ok k0 n j; have := h_ok ok; move: ((kap n *: st_G s) 0 j) h => g e e0 g0.
by rewrite expr2; toR; field; toR; lra.
Qed.

(** The proposals do not collapse on the mean of the prior. *)
Lemma rvs_vanish u m e : vlim (fun n => prop_rvs (step_prop (sk n)) u m e) (m + sqrt stable_zero *: (st_U s *m e)).
Proof.
rewrite scalemxAl; apply: vlim_add _ (vlim_mul chol_vanish (vlim_const e)).
apply: (vlim_ext (x := fun n => m + step_gain (sk n) *m (u - m))) => [n|]; first by rewrite /prop_mean mulmxA.
by have := vlim_add (vlim_const m) (vlim_mul gain_vanish (vlim_const (u - m))); rewrite mul0mx addr0.
Qed.

Lemma rvs_vanish_neq (m e : 'cV[R]_d) : e <> 0 -> m + sqrt stable_zero *: (st_U s *m e) <> m.
Proof.
move=> e0 /(congr1 (fun v => v - m)); rewrite [m + _]addrC addrK subrr => /eqP; rewrite scaler_eq0 => /orP [/eqP z|/eqP z].
  have := sqrt_lt_R0 stable_zero; rewrite z => H.
  have /RltE := H (proj1 (RltE _ _) sz_gt0); by rewrite ltxx.
by apply: e0; rewrite -[e]mul1mx -(UtU (UU_ok ok)) -mulmxA z mulmx0.
Qed.

(** Draws from the prior do. *)
Lemma cholesky_scale (k : R) : 0 < k -> cholesky (k *: st_Q s) = sqrt k *: cholesky (st_Q s).
Proof.
move=> kk; have sp := step_spd ok; have [tr dg fac] := cholesky_ok sp.
have kr : (0 <= k)%coqR by apply/RleE; rewrite ltW.
have sk0 : 0 < sqrt k by apply/RltE; apply: sqrt_lt_R0; apply/RltE.
have spk : spd (k *: st_Q s).
  have [sy po] := sp; split; first by rewrite /symmetric linearZ /= sy.
  move=> v v0; rewrite /quad -scalemxAr -scalemxAl mxE mulr_gt0 //; exact: po.
apply/esym/(cholesky_iff _ spk); split; last split.
- apply/is_trig_mxP => i j ij; rewrite mxE; move/is_trig_mxP: tr => /(_ i j ij) ->; exact: mulr0.
- by move=> i; rewrite mxE mulr_gt0.
by rewrite linearZ /= -scalemxAr -scalemxAl scalerA fac (_ : sqrt k * sqrt k = k) //; exact: sqrt_sqrt.
Qed.

Lemma prior_vanish m e : vlim (fun n => rvs_of e m (cholesky (st_Q (sk n)))) m.
Proof.
have z0 : (0 : R) <= 0 by [].
have H := vlim_add (vlim_const m) (vlim_mul (vlim_scale (lim_sqrt z0 kz) (vlim_const (cholesky (st_Q s)))) (vlim_const e)).
rewrite sqrt_0 scale0r mul0mx addr0 in H; apply: vlim_ext H => n.
by rewrite /rvs_of /= cholesky_scale.
Qed.
End Vanish.

Lemma unclipped (d : nat) (Q : Type) (s : step d Q) : step_ok s -> exists v : 'rV[R]_d,
  p_chol (step_prop s) *m (p_chol (step_prop s))^T = st_U s *m diag_mx v *m (st_U s)^T /\
  forall i, 0 < v 0 i < st_G s 0 i.
Proof.
case=> UU g0 l0 eQ cl; exists (\row_i var (st_G s) (st_ell s) i); split; first by rewrite /step_prop covU.
move=> i; rewrite mxE var_gt0 //= /var mxE.
have h0 : 0 < st_ell s / 2%:R by rewrite divr_gt0 ?ltr0n.
by rewrite mulrCA gtr_pmulr // ltr_pdivr_mulr ?addr_gt0 // mul1r ltr_addr.
Qed.
