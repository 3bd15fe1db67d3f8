(** * DensitySingle: the single-state kernels on real vectors, given all points (C59). *)
From Coq Require Import Reals Lra FunctionalExtensionality Epsilon.
From mathcomp Require Import all_ssreflect all_algebra fingroup perm.
From Verif Require Import RInst Prog ProgTheory Resampling Spec ResamplingProofs MoveProofs.
From Verif Require Import CsmcInvariance AuxProofs TpProofs Gauss GaussSpec GaussProofs MarginalProofs MarginalFinal.
From Verif Require Import Single SingleSpec SingleProofs SingleFinal AuxFinal DensitySpec DensityProofs DensityTp Kalman KalmanSpec CholProofs KalmanProofs KalmanPaths SingleReal.

Set Implicit Arguments.
Unset Strict Implicit.
Unset Printing Implicit Defensive.
Import GRing.Theory Num.Theory Order.TTheory.
Local Open Scope ring_scope.

Section Points.
Variables (X : Type) (N : nat).
Local Notation n := N.+1.
Variables (mv : mover n) (kc : key) (y : 'I_n -> X) (target : X -> R) (given : 'I_n -> R).
Variables (kern : 'I_n -> (X -> R) -> R) (w : 'I_n -> R) (S : R).
Hypothesis kernE : forall b f, kern b f = given b * E (mv kc (normalize w) b) (fun r => f (y r.1)).
Hypothesis tS : forall b, target (y b) * given b = S * exp (w b).
Hypothesis S0 : 0 <= S.

Definition tot : R := S * \sum_i exp (w i).
Lemma tot_ge0 : 0 <= tot.
Proof. by apply: mulr_ge0 => //; apply: sumr_ge0 => i _; apply: ltW; exact: expR_gt0. Qed.

Lemma joint_tot b : target (y b) * given b = tot * normalize w b.
Proof.
rewrite tS normalizeE /tot -mulrA; congr (_ * _).
by rewrite mulrCA divff ?mulr1 // lt0r_neq0 // sum_exp_gt0.
Qed.

Lemma sum_kern h : \sum_b target (y b) * kern b (h b)
  = tot * \sum_b normalize w b * E (mv kc (normalize w) b) (fun r => h b (y r.1)).
Proof. by rewrite mulr_sumr; apply: eq_bigr => b _; rewrite kernE mulrA joint_tot mulrA. Qed.

Lemma sum_now (f : 'I_n -> R) : \sum_b target (y b) * given b * f b = tot * \sum_b normalize w b * f b.
Proof. by rewrite mulr_sumr; apply: eq_bigr => b _; rewrite joint_tot mulrA. Qed.

Lemma points_keep : good_mover mv -> keeps_points y target given kern.
Proof.
move=> gm f; rewrite (sum_kern (fun=> f)) (sum_now (fun b => f (y b))); congr (_ * _).
exact: (gm _ _ (normalize_prob w) (fun k => f (y k))).
Qed.

Lemma points_near c eps :
  (forall w (g : 'I_n -> R), prob_vec w -> (forall k, `|g k| <= c) ->
    `|\sum_k w k * E (mv kc w k) (fun r => g r.1) - \sum_k w k * g k| <= eps) ->
  nearly_keeps_points y target given kern c eps.
Proof.
move=> H f fc; rewrite (sum_kern (fun=> f)) (sum_now (fun b => f (y b))) (sum_now (fun=> eps)).
rewrite -mulrBr normrM (ger0_norm tot_ge0); apply: ler_wpmul2l; first exact: tot_ge0.
rewrite -mulr_suml normalize_sum mul1r.
by apply: (H _ (fun k => f (y k))) => //; exact: normalize_prob.
Qed.

Lemma points_reversible : reversible_mover mv -> reversible_points y target kern.
Proof.
move=> rev h; rewrite (sum_kern (fun b => h (y b))) (sum_kern (fun b z => h z (y b))); congr (_ * _).
under eq_bigr => k _ do rewrite (E_mass_mv mv kc _ _ (fun i => h (y k) (y i))) mulr_sumr.
under [RHS]eq_bigr => k _ do rewrite (E_mass_mv mv kc _ _ (fun i => h (y i) (y k))) mulr_sumr.
rewrite exchange_big /=; apply: eq_bigr => k _; apply: eq_bigr => l _.
by rewrite !mulrA rev //; exact: normalize_prob.
Qed.
End Points.

(** The current state in front. *)
Section Front.
Variables (N : nat).
Local Notation n := N.+1.
Definition to_front (b i : 'I_n) : 'I_n := if unlift ord0 i is Some j then lift b j else b.

Lemma to_front0 b : to_front b ord0 = b. Proof. by rewrite /to_front unlift_none. Qed.
Lemma to_front_bij b : bijective (to_front b).
Proof.
exists (fun k => if unlift b k is Some j then lift ord0 j else ord0) => i; rewrite /to_front.
  by case: (unliftP ord0 i) => [j ->|->]; rewrite ?liftK ?unlift_none.
by case: (unliftP b i) => [j ->|->]; rewrite ?liftK ?unlift_none.
Qed.

Lemma insert_front (Y : Type) (v : Y) (a : 'I_N -> Y) (z : 'I_n -> Y) b : v = z b -> (forall j, a j = z (lift b j)) ->
  forall i, insert0 v a i = z (to_front b i).
Proof. by move=> vz az i; rewrite /insert0 /to_front; case: unlift => [j|]. Qed.

Lemma normalize_relabel (w : 'I_n -> R) (s : 'I_n -> 'I_n) : bijective s ->
  normalize (fun i => w (s i)) = fun i => normalize w (s i).
Proof.
move=> bs; apply: functional_extensionality => i; rewrite !normalizeE; congr (_ / _).
exact: (sum_relabel bs (fun i => exp (w i))).
Qed.

Lemma move_front (mv : mover n) kc (w : 'I_n -> R) b (f : 'I_n -> R) : relabels mv ->
  E (mv kc (normalize (fun i => w (to_front b i))) ord0) (fun r => f (to_front b r.1))
  = E (mv kc (normalize w) b) (fun r => f r.1).
Proof. by move=> rel; rewrite normalize_relabel ?rel ?to_front0 //; exact: to_front_bij. Qed.

Lemma prod_lift (b : 'I_n) (g : 'I_n -> R) : \prod_(j < N) g (lift b j) = \prod_(i | i != b) g i.
Proof.
rewrite [RHS]big_mkcond (bigD1_ord b) //= eqxx mul1r; apply: eq_bigr => j _.
by rewrite eq_sym neq_lift.
Qed.
End Front.

Section Kernels.
Variables (d N : nat).
Local Notation n := N.+1.
Local Notation vec := 'cV[R]_d.
Local Notation pop := {ffun 'I_n -> vec}.
Variables (log_pdf : vec -> R) (grad : vec -> vec) (mv : mover n) (delta : R) (key : key).
Hypothesis rel : relabels mv.
Hypothesis d0 : 0 < delta.
Local Notation step := (half_step delta).
Local Notation noise := (half_noise delta).

Lemma mean0_relabel (y : 'I_n -> vec) (s : 'I_n -> 'I_n) : bijective s -> mean0 (fun i => y (s i)) = mean0 y.
Proof. by move=> bs; rewrite /mean0; congr (_ *: _); rewrite [RHS](reindex s) //; exact: onW_bij. Qed.

Lemma log_H_relabel (y : 'I_n -> vec) (s : 'I_n -> 'I_n) c e x phi : bijective s ->
  mala_log_H (fun i => y (s i)) c e x phi = mala_log_H y c e x phi.
Proof. by move=> bs; rewrite /mala_log_H mean0_relabel. Qed.

Definition mala_w (aux : bool) (u : vec) (y : pop) (i : 'I_n) : R :=
  if aux then log_pdf (y i) + mala_ld delta (u - y i - step (grad (y i))) - mala_ld delta (u - y i)
  else log_pdf (y i) + mala_log_H y (2%:R / delta) (1 / 2%:R * delta) (y i) (step (grad (y i))).

Definition mala_given (u : vec) (y : pop) (b : 'I_n) : R :=
  noise (u - (y b + step (grad (y b)))) * \prod_(i | i != b) noise (y i - u).

Lemma mala_vecE aux u (y : pop) b f :
  E (mala_vec log_pdf grad mv delta key aux u y b) f
  = mala_given u y b * E (mv (split key 1) (normalize (mala_w aux u y)) b) (fun r => f (y r.1)).
Proof.
rewrite /mala_vec E_bind /mala_run E_bind E_observed E_bind E_observed.
set us := _ + _ + _; have -> : us = u by rewrite /us addrC subrK.
clear us; rewrite E_select mulrA /mala_given -(prod_lift b (fun i => noise (y i - u))).
have eF : [ffun i => insert0 (y b) (fun j => u + [ffun j => proposals y b j - u] j) i] = [ffun i => y (to_front b i)].
  by apply/ffunP => i; rewrite !ffunE; apply: insert_front => // j; rewrite !ffunE addrC subrK.
congr (_ * _ * _).
  by apply: eq_bigr => j _; rewrite !ffunE.
rewrite -(move_front _ _ _ (fun i => f (y i)) rel) eF.
transitivity (E (mv (split key 1) (normalize (fun i => mala_w aux u y (to_front b i))) ord0) (fun r => f ([ffun i => y (to_front b i)] r.1))).
  congr (E (mv _ (normalize _) _) _); apply: functional_extensionality => i.
  rewrite /mala_log_weights /mala_w.
  have e1 : insert0 (log_pdf (y b)) (fun j => log_pdf (u + [ffun j => proposals y b j - u] j)) i = log_pdf (y (to_front b i)).
    by apply: (insert_front (z := fun i => log_pdf (y i))) => // j; rewrite !ffunE addrC subrK.
  have e2 : [ffun i => insert0 (grad (y b)) (fun j => grad (u + [ffun j => proposals y b j - u] j)) i] i = grad (y (to_front b i)).
    by rewrite ffunE; apply: (insert_front (z := fun i => grad (y i))) => // j; rewrite !ffunE addrC subrK.
  rewrite /tp1_init; cbn [fst snd]; case: (aux); rewrite e1 e2 ffunE //; congr (_ + _).
  rewrite -(log_H_relabel y _ _ _ _ (to_front_bij b)); congr mala_log_H.
  by apply: functional_extensionality => k; rewrite ffunE.
by apply: eq_E => r; rewrite ffunE.
Qed.

Lemma noise_ldE (z : vec) : noise z = exp (mala_ld delta z).
Proof. by rewrite /half_noise -{2}[z]subr0 mala_ldE. Qed.

Lemma aux_prop u (y : pop) : exists2 S, 0 <= S &
  forall b, exp (log_pdf (y b)) * mala_given u y b = S * exp (mala_w true u y b).
Proof.
exists (\prod_i noise (y i - u)); first by apply: prodr_ge0 => i _; apply: ltW; exact: expR_gt0.
move=> b; have -> : mala_w true u y b = log_pdf (y b) + mala_ld delta (u - y b - step (grad (y b))) - mala_ld delta (u - y b) by [].
rewrite /mala_given [in RHS](bigD1 b) //=.
rewrite expRB expRD opprD addrA -!noise_ldE.
have -> : noise (u - y b) = noise (y b - u).
  by rewrite !noise_ldE -opprB /mala_ld !sqnE dotvNl dotvNr opprK.
have sw (a c e p : R) : a != 0 -> e * (c * p) = a * p * (e * c / a).
  by move=> a0; rewrite mulrAC mulrA [a * _]mulrC divfK // mulrA.
by apply: sw; exact: expR_neq0.
Qed.

(** *** The auxiliary variable integrated out *)
Section Marginal.
Variable I : (vec -> R) -> R.
Hypothesis TI : translation_invariant I.

Definition mala_marg (y : pop) (b : 'I_n) : R := I (fun u => mala_given u y b).

Lemma mala_margE (y : pop) b f :
  I (fun u => E (mala_vec log_pdf grad mv delta key false u y b) f)
  = mala_marg y b * E (mv (split key 1) (normalize (mala_w false 0 y)) b) (fun r => f (y r.1)).
Proof.
rewrite mulrC -(int_scale TI); apply: (int_ext TI) => u; by rewrite mala_vecE mulrC.
Qed.

Lemma marg_prop (y : pop) : exists2 S,
  ((forall g, (forall u, 0 <= g u) -> 0 <= I g) -> 0 <= S) &
  forall b, exp (log_pdf (y b)) * mala_marg y b = S * exp (mala_w false 0 y b).
Proof.
have [c Hc] := l_marg y d0 TI.
have He b : mala_marg y b = c * exp (mala_log_H y (2%:R / delta) (1 / 2%:R * delta) (y b) (step (grad (y b)))).
  have e2 : 1 / 2%:R * delta = delta / 2%:R by rewrite div1r mulrC.
  rewrite [in RHS]e2 -l_mala ?lt0r_neq0 // -(Hc (b, step (grad (y b)))); apply: (int_ext TI) => u.
  rewrite /mala_given /half_noise expRD; congr (_ * _).
    by rewrite /gauss_kernel subr0.
  by rewrite expR_sum; apply: eq_bigr => i _; rewrite /gauss_kernel subr0.
exists c => [I0|b].
  have := He ord0; have m0 : 0 <= mala_marg y ord0.
    by apply: I0 => u; apply: mulr_ge0; [exact: ltW (expR_gt0 _)|apply: prodr_ge0 => i _; exact: ltW (expR_gt0 _)].
  by move=> e; rewrite e pmulr_lge0 // in m0; exact: expR_gt0.
have -> : mala_w false 0 y b = log_pdf (y b) + mala_log_H y (2%:R / delta) (1 / 2%:R * delta) (y b) (step (grad (y b))) by [].
by rewrite He expRD mulrCA.
Qed.

End Marginal.

End Kernels.

(** *** tp.py *)
Section TpRun.
Variables (X : zmodType) (N : nat).
Local Notation n := N.+1.
Local Notation pop := {ffun 'I_n -> X}.
Variables (log_pdf : X -> R) (grad : X -> X) (mv : mover n) (key : key).
Variables (noise : X -> R) (step : X -> X) (corr : X -> X -> X -> R) (D : X -> R) (draw : Prog.key -> X -> prog {ffun 'I_N -> X}).
Variables (prior : X -> R) (u : X) (y : pop) (b : 'I_n).
Hypothesis rel : relabels mv.
Hypothesis corrE : forall x, noise (u - (x + step (grad x))) = noise (u - x) * exp (corr u x (grad x)).
Hypothesis drawE : forall k f, E (draw k u) f = \prod_(i | i != b) D (y i) * f [ffun j : 'I_N => y (lift b j)].

Definition tp1_w (i : 'I_n) : R := log_pdf (y i) + corr u (y i) (grad (y i)).
Definition tp1_given (b : 'I_n) : R := noise (u - (y b + step (grad (y b)))) * \prod_(i | i != b) D (y i).

Lemma tp1_runE f :
  E (do r <- tp1_run log_pdf grad (fun k => let eps := u - (y b + step (grad (y b))) in observed k (noise eps) eps)
       step mv corr draw key (tp1_init log_pdf grad (y b));
     Ret r.1.1.1) f
  = tp1_given b * E (mv (split key 1) (normalize tp1_w) b) (fun r => f (y r.1)).
Proof.
rewrite E_bind /tp1_run E_bind E_observed.
set us := _ + _ + _; have -> : us = u by rewrite /us addrC subrK.
clear us; rewrite E_bind drawE E_select mulrA /tp1_given.
have eF : [ffun i => insert0 (y b) [ffun j : 'I_N => y (lift b j)] i] = [ffun i => y (to_front b i)].
  by apply/ffunP => i; rewrite !ffunE; apply: insert_front => // j; rewrite !ffunE.
congr (_ * _ * _).
rewrite -(move_front _ _ _ (fun i => f (y i)) rel) eF.
transitivity (E (mv (split key 1) (normalize (fun i => tp1_w (to_front b i))) ord0) (fun r => f ([ffun i => y (to_front b i)] r.1))).
  congr (E (mv _ (normalize _) _) _); apply: functional_extensionality => i.
  rewrite /tp1_w.
  have e1 : insert0 (log_pdf (y b)) (fun j => log_pdf ([ffun j : 'I_N => y (lift b j)] j)) i = log_pdf (y (to_front b i)).
    by apply: (insert_front (z := fun i => log_pdf (y i))) => // j; rewrite !ffunE.
  have e2 : [ffun i => insert0 (grad (y b)) (fun j => grad ([ffun j : 'I_N => y (lift b j)] j)) i] i = grad (y (to_front b i)).
    by rewrite ffunE; apply: (insert_front (z := fun i => grad (y i))) => // j; rewrite !ffunE.
  by rewrite /tp1_init; cbn [fst snd]; rewrite e1 e2 ffunE.
by apply: eq_E => r; rewrite ffunE.
Qed.
End TpRun.

Lemma tp1_prop (X : zmodType) N (log_pdf : X -> R) (grad : X -> X) (noise : X -> R) (step : X -> X)
    (corr : X -> X -> X -> R) (D prior : X -> R) (u : X) (y : {ffun 'I_N.+1 -> X}) Z :
  (forall x, noise (u - (x + step (grad x))) = noise (u - x) * exp (corr u x (grad x))) ->
  (forall x, 0 <= D x) -> 0 <= Z -> (forall i, prior (y i) * noise (u - y i) = Z * D (y i)) ->
  exists2 S, 0 <= S & forall b, prior (y b) * exp (log_pdf (y b)) * tp1_given grad noise step D u y b
    = S * exp (tp1_w log_pdf grad corr u y b).
Proof.
move=> corrE D0 Z0 ZE.
exists (Z * \prod_i D (y i)); first by apply: mulr_ge0 => //; apply: prodr_ge0.
move=> b; rewrite [in RHS](bigD1 b) //= [Z * _]mulrA -ZE /tp1_given /tp1_w expRD corrE.
move: (prior _) (exp (log_pdf _)) (noise _) (exp (corr _ _ _)) (\prod_(_ | _) _) => p l v c q.
Rring.
Qed.

(** The Kalman sampler. *)
Section TpTraj.
Variables (d T N : nat).
Local Notation vec := 'cV[R]_d.
Local Notation mat := 'M[R]_d.
Local Notation traj := {ffun 'I_T.+1 -> vec}.
Local Notation n := N.+1.
Variables (delta : R) (m0 : vec) (P0 : mat) (F Qm : nat -> mat) (drift : nat -> vec).
Hypotheses (d0 : 0 < delta) (sP : spd P0) (sQ : forall t, spd (Qm t)).
Local Notation draw := (kalman_draw delta m0 P0 F Qm drift).
Local Notation S := ((1 / 2%:R * delta)%:M : mat).

Lemma cholesky_unit (C : mat) : spd C -> cholesky C \in unitmx.
Proof. by move=> hC; have [tr dg fac] := cholesky_ok hC; apply: trig_unit => // i; rewrite gt_eqF. Qed.

Lemma spdS : spd S.
Proof.
split; first by rewrite /symmetric tr_scalar_mx.
by apply: positive_scalar; rewrite mulr_gt0 // divr_gt0 ?ltr01 // ltr0n.
Qed.

Definition traj_prior (x : traj) : R := chain_logpdf T m0 P0 F Qm drift (at_time x).
Definition traj_obs (u x : traj) : R := \sum_t gauss_logpdf (delta / 2%:R)%:M (u t) (x t).
Definition traj_std (e : traj) : R := \sum_t std_logpdf (e t).

(** The sampler draws each trajectory from exactly one noise, and the density of that noise is the posterior
    density up to a factor. *)
Lemma kalman_posterior (u : traj) : exists2 k, 0 < k &
  (forall e, exp (traj_std e) = k * exp (traj_prior (draw u e) + traj_obs u (draw u e)))
  /\ (forall x, exists e, draw u e = x).
Proof.
have := @posterior_exact d d T m0 P0 F Qm drift (fun=> 1%:M) (fun=> S) (fun=> 0) (at_time u) 0 sP sQ (fun=> spdS) (leq0n 1).
rewrite /kalman_draw subn0; case: (filtering _ _ _ _) => filt ell [A [C [a [_ sC eq H _]]]].
pose s (e : traj) := sampling (mkseq (at_time e) T.+1) filt [seq Dyn (F t) (Qm t) (drift t) | t <- iota 0 T].
pose x (e : traj) : traj := [ffun t : 'I_T.+1 => nth 0 (s e) t].
have xE (e : traj) t : (t <= T)%N -> at_time (x e) t = nth 0 (s e) t by move=> lt; rewrite /at_time ffunE inordK.
have S2 : S = (delta / 2%:R)%:M by rewrite div1r mulrC.
pose c := \sum_(t < T.+1) ln (\det (C t)) / 2%:R.
exists (exp (c - ell)); first exact: expR_gt0.
split=> [e|z].
  rewrite -expRD; congr exp; rewrite -/(s e) -/(x e).
  have [_ eT et] := H (at_time e); rewrite -/(s e) in eT et.
  have := eq (at_time (x e)); rewrite /obs_logpdf big_mkord.
  have -> : \sum_(t < T.+1) gauss_logpdf S (at_time u t) (1%:M *m at_time (x e) t + 0) = traj_obs u (x e).
    by apply: eq_bigr => t _; rewrite S2 mul1mx addr0 /at_time !inord_val.
  rewrite -/(traj_prior _) => ->; rewrite xE // eT draw_density; last exact: sC.
  have -> : \sum_(t < T) gauss_logpdf (C t) (at_time (x e) t) (A t *m at_time (x e) t.+1 + a t)
    = \sum_(t < T) (std_logpdf (at_time e t.+1) - ln (\det (C t)) / 2%:R).
    apply: eq_bigr => t _; have lt := ltn_ord t; rewrite !xE ?(ltnW lt) // et // draw_density //; exact: sC (ltnW lt).
  rewrite sumrB /traj_std big_ord_recl /c big_ord_recr /=.
  have -> : \sum_(i < T) std_logpdf (e (lift ord0 i)) = \sum_(t < T) std_logpdf (at_time e t.+1).
    apply: eq_bigr => t _; rewrite /at_time; congr (std_logpdf (e _)); apply: val_inj.
    by rewrite /= inordK // ltnS.
  have -> : at_time e 0 = e ord0 by rewrite /at_time; congr (e _); apply: val_inj; rewrite /= inordK.
  move: (\sum_(_ < _) _) (\sum_(_ < _) _) (std_logpdf _) (ln _ / _) => p q r w.
  Rring.
pose e : traj := [ffun t : 'I_T.+1 => if (t : nat) is t'.+1
  then invmx (cholesky (C t')) *m (at_time z t' - (A t' *m at_time z t'.+1 + a t'))
  else invmx (cholesky (C T)) *m (at_time z T - a T)].
exists e; rewrite -/(s e); apply/ffunP => t; rewrite ffunE.
have [_ eT et] := H (at_time e); rewrite -/(s e) in eT et.
have e0 : at_time e 0 = invmx (cholesky (C T)) *m (at_time z T - a T) by rewrite /at_time ffunE inordK.
have eS t' : (t' < T)%N -> at_time e t'.+1 = invmx (cholesky (C t')) *m (at_time z t' - (A t' *m at_time z t'.+1 + a t')).
  by move=> lt; rewrite /at_time ffunE inordK.
have K : forall j, (j <= T)%N -> nth 0 (s e) (T - j) = at_time z (T - j).
  elim=> [_|j IH lt].
    by rewrite subn0 eT e0 mulKVmx ?cholesky_unit ?[a T + _]addrC ?subrK //; apply: sC.
  have lt' : (T - j.+1 < T)%N by rewrite ltn_subrL /=; case: (T) lt.
  have e1 : (T - j.+1).+1 = (T - j)%N by rewrite subnSK.
  rewrite et // eS // e1 (IH (ltnW lt)) mulKVmx ?cholesky_unit //; last by apply: sC; exact: ltnW.
  by rewrite addrC subrK.
have tT : (t <= T)%N by rewrite -ltnS.
have := K (T - t)%N (leq_subr _ _); rewrite subKn // => ->.
by rewrite /at_time inord_val.
Qed.

Variables (log_pdf : traj -> R) (grad : traj -> traj) (mv : mover n) (key : key) (u : traj) (e : traj -> traj).
Variable y : {ffun 'I_n -> traj}.
Hypothesis rel : relabels mv.
Hypothesis he : forall i, draw u (e (y i)) = y i.

Local Notation traj_w := (tp1_w log_pdf grad (@traj_corr d T delta) u y).
Local Notation traj_given := (tp1_given grad (@traj_noise d T delta) (@traj_step d T delta) (fun x => exp (traj_std (e x))) u y).

Lemma traj_noiseE (x g : traj) :
  traj_noise delta (u - (x + traj_step delta g)) = traj_noise delta (u - x) * exp (traj_corr delta u x g).
Proof.
rewrite -expRD; congr exp; rewrite -big_split /=; apply: eq_bigr => t _; rewrite !ffunE.
have sh m : gauss_kernel (delta / 2%:R)%:M (u t - m) 0 = gauss_kernel (delta / 2%:R)%:M (u t) m by rewrite /gauss_kernel subr0.
by rewrite !sh tp1_corrE.
Qed.

Lemma tp1_trajE b f : E (tp1_traj log_pdf grad mv delta key m0 P0 F Qm drift u e y b) f
  = traj_given b * E (mv (split key 1) (normalize traj_w) b) (fun r => f (y r.1)).
Proof.
apply: tp1_runE => // k g.
rewrite E_bind E_observed; congr (_ * _).
  rewrite -(prod_lift b (fun i => exp (traj_std (e (y i))))); apply: eq_bigr => j _; rewrite ffunE //.
by congr g; apply/ffunP => j; rewrite !ffunE he.
Qed.

Lemma traj_prop : exists2 Z, 0 <= Z &
  forall b, exp (traj_prior (y b)) * exp (log_pdf (y b)) * traj_given b = Z * exp (traj_w b).
Proof.
have [k k0 [kE _]] := kalman_posterior u.
have N0 : 0 < \prod_(t < T.+1) exp (gauss_logpdf (delta / 2%:R)%:M 0 (0 : vec)) by apply: prodr_gt0 => t _; exact: expR_gt0.
pose c := \sum_(t < T.+1) gauss_logpdf (delta / 2%:R)%:M 0 (0 : vec).
apply: (@tp1_prop _ _ log_pdf grad (@traj_noise d T delta) (@traj_step d T delta) (@traj_corr d T delta) _ (fun x => exp (traj_prior x)) u y (exp (- c) / k)).
- by move=> x; exact: traj_noiseE.
- by move=> x; exact: ltW (expR_gt0 _).
- by apply: ltW; rewrite divr_gt0 // expR_gt0.
move=> i; rewrite kE he -mulrA mulKf ?lt0r_neq0 // -!expRD; congr exp.
rewrite addrCA; congr (_ + _); rewrite /c /traj_obs -sumrN -big_split /=; apply: eq_bigr => t _.
rewrite !ffunE /gauss_logpdf /gauss_kernel !subr0.
have -> : quad (invmx (delta / 2%:R)%:M) (0 : vec) = 0 by rewrite /quad mulmx0 mxE.
move: (ln _) (ln _) (quad _ _) (d%:R) => p q r v; Rring.
Qed.
End TpTraj.

(** *** imh.py *)
Section Imh.
Variables (X : Type) (N : nat) (log_pdf : X -> R) (mv : mover N.+1) (key : key) (prior : X -> R) (y : {ffun 'I_N.+1 -> X}).
Hypothesis rel : relabels mv.

Definition imh_given (b : 'I_N.+1) : R := \prod_(i | i != b) prior (y i).

Lemma imh_obsE b f :
  E (imh_obs log_pdf mv key prior y b) f
  = imh_given b * E (mv (split key 1) (normalize (fun i => log_pdf (y i))) b) (fun r => f (y r.1)).
Proof.
rewrite /imh_obs E_bind /imh_kernel E_bind E_observed E_select /imh_given -(prod_lift b (fun i => prior (y i))).
have eF : [ffun i => insert0 (y b) [ffun j : 'I_N => y (lift b j)] i] = [ffun i => y (to_front b i)].
  by apply/ffunP => i; rewrite !ffunE; apply: insert_front => // j; rewrite !ffunE.
congr (_ * _).
rewrite -(move_front _ _ _ (fun i => f (y i)) rel) eF.
transitivity (E (mv (split key 1) (normalize (fun i => log_pdf (y (to_front b i)))) ord0) (fun r => f ([ffun i => y (to_front b i)] r.1))).
  congr (E (mv _ (normalize _) _) _); apply: functional_extensionality => i.
  by apply: (insert_front (z := fun i => log_pdf (y i))) => // j; rewrite !ffunE.
by apply: eq_E => r; rewrite ffunE.
Qed.

Hypothesis prior0 : forall x, 0 <= prior x.
Lemma imh_prop : exists2 S, 0 <= S & forall b, prior (y b) * exp (log_pdf (y b)) * imh_given b = S * exp (log_pdf (y b)).
Proof.
exists (\prod_i prior (y i)); first exact: prodr_ge0.
by move=> b; rewrite [in RHS](bigD1 b) //= mulrAC.
Qed.
End Imh.

(** ** In the words of the statements *)
Definition points_kept (X : Type) (n : nat) (mv : mover n) (y : 'I_n -> X) (target : X -> R) (given : 'I_n -> R)
  (kern : 'I_n -> (X -> R) -> R) : Prop :=
  (good_mover mv -> keeps_points y target given kern) /\ (reversible_mover mv -> reversible_points y target kern).

Lemma points_both (X : Type) N (mv : mover N.+1) kc (y : 'I_N.+1 -> X) target given given' kern w :
  given =1 given' ->
  (forall b f, kern b f = given b * E (mv kc (normalize w) b) (fun r => f (y r.1))) ->
  (exists S, forall b, target (y b) * given b = S * exp (w b)) ->
  points_kept mv y target given' kern.
Proof.
move=> e kE [S SE]; have kE' b f : kern b f = given' b * E (mv kc (normalize w) b) (fun r => f (y r.1)) by rewrite kE e.
have SE' b : target (y b) * given' b = S * exp (w b) by rewrite -e.
by split=> gm; [apply: (points_keep kE' SE')|apply: (points_reversible kE' SE')].
Qed.

Lemma points_force (X : Type) N kc (y : 'I_N.+1 -> X) target given given' kern w c :
  given =1 given' ->
  (forall b f, kern b f = given b * E (force_move kc (normalize w) b) (fun r => f (y r.1))) ->
  (exists2 S, 0 <= S & forall b, target (y b) * given b = S * exp (w b)) ->
  nearly_keeps_points y target given' kern c (force_eps N.+1 c).
Proof.
move=> e kE [S S0 SE]; have kE' b f : kern b f = given' b * E (force_move kc (normalize w) b) (fun r => f (y r.1)) by rewrite kE e.
have SE' b : target (y b) * given' b = S * exp (w b) by rewrite -e.
by apply: (points_near kE' SE' S0) => *; exact: force_bound.
Qed.

Section Final.
Variables (d N : nat) (log_pdf : 'cV[R]_d -> R) (grad : 'cV[R]_d -> 'cV[R]_d) (delta : R) (key : key).
Variables (y : {ffun 'I_N.+1 -> 'cV[R]_d}).
Hypothesis d0 : 0 < delta.
Local Notation S := ((delta / 2%:R)%:M : 'M[R]_d).
Local Notation given u b := (exp (gauss_kernel S u (y b + (delta / 2%:R) *: grad (y b)))
   * \prod_(i | i != b) exp (gauss_kernel S (y i) u)).

Lemma half : 1 / 2%:R * delta = delta / 2%:R. Proof. by rewrite div1r mulrC. Qed.

Lemma mala_givenE u b : mala_given grad delta u y b = given u b.
Proof.
rewrite /mala_given /half_noise /half_step half; congr (_ * _); first by rewrite /gauss_kernel subr0.
by apply: eq_bigr => i _; rewrite /gauss_kernel subr0.
Qed.

Lemma mala_aux_points mv u : relabels mv ->
  points_kept mv y (fun x => exp (log_pdf x)) (fun b => given u b) (fun b => E (mala_vec log_pdf grad mv delta key true u y b)).
Proof.
move=> rel; apply: (points_both (mala_givenE u) (mala_vecE _ _ _ _ rel true u y)).
by have [S S0 SE] := aux_prop log_pdf grad d0 u y; exists S.
Qed.

Lemma mala_aux_near u c :
  nearly_keeps_points y (fun x => exp (log_pdf x)) (fun b => given u b)
    (fun b => E (mala_vec log_pdf grad (@force_move _) delta key true u y b)) c (force_eps N.+1 c).
Proof.
apply: (points_force (kc := split key 1) (w := mala_w log_pdf grad delta true u y) (mala_givenE u)).
  by move=> b f; rewrite mala_vecE //; exact: force_rel.
exact: aux_prop.
Qed.

Variable I : ('cV[R]_d -> R) -> R.
Hypothesis TI : translation_invariant I.

Lemma mala_margE' b : mala_marg grad delta I y b = I (fun u => given u b).
Proof. by apply: (int_ext TI) => u; rewrite mala_givenE. Qed.

Lemma mala_marg_points mv : relabels mv ->
  points_kept mv y (fun x => exp (log_pdf x)) (fun b => I (fun u => given u b))
    (fun b f => I (fun u => E (mala_vec log_pdf grad mv delta key false u y b) f)).
Proof.
move=> rel; apply: (points_both mala_margE' (mala_margE _ _ _ _ rel TI y)).
by have [S S0 SE] := marg_prop log_pdf grad d0 TI y; exists S.
Qed.

Lemma mala_marg_near c : (forall g, (forall u, 0 <= g u) -> 0 <= I g) ->
  nearly_keeps_points y (fun x => exp (log_pdf x)) (fun b => I (fun u => given u b))
    (fun b f => I (fun u => E (mala_vec log_pdf grad (@force_move _) delta key false u y b) f)) c (force_eps N.+1 c).
Proof.
move=> I0; apply: (points_force (kc := split key 1) (w := mala_w log_pdf grad delta false 0 y) mala_margE').
  by move=> b f; rewrite mala_margE //; exact: force_rel.
by have [S S0 SE] := marg_prop log_pdf grad d0 TI y; exists S; auto.
Qed.
End Final.

Section FinalTp.
Variables (d T N : nat).
Local Notation vec := 'cV[R]_d.
Local Notation mat := 'M[R]_d.
Local Notation traj := {ffun 'I_T.+1 -> vec}.
Variables (log_pdf : traj -> R) (grad : traj -> traj) (delta : R) (key : key).
Variables (m0 : vec) (P0 : mat) (F Qm : nat -> mat) (drift : nat -> vec) (u : traj) (e : traj -> traj) (y : {ffun 'I_N.+1 -> traj}).
Hypotheses (d0 : 0 < delta) (sP : spd P0) (sQ : forall t, spd (Qm t)).
Hypothesis he : forall i, kalman_draw delta m0 P0 F Qm drift u (e (y i)) = y i.
Local Notation target := (fun x : traj => exp (chain_logpdf T m0 P0 F Qm drift (at_time x)) * exp (log_pdf x)).
Local Notation given := (fun b =>
  exp (\sum_t gauss_kernel (delta / 2%:R)%:M (u t) (y b t + (delta / 2%:R) *: grad (y b) t))
  * \prod_(i | i != b) exp (\sum_t std_logpdf (e (y i) t))).

Lemma traj_givenE b :
  tp1_given grad (@traj_noise d T delta) (@traj_step d T delta) (fun x => exp (traj_std (e x))) u y b = given b.
Proof.
rewrite /tp1_given /traj_noise; congr (exp _ * _).
by apply: eq_bigr => t _; rewrite !ffunE half /gauss_kernel subr0.
Qed.

Lemma tp1_points mv : relabels mv ->
  points_kept mv y target given (fun b => E (tp1_traj log_pdf grad mv delta key m0 P0 F Qm drift u e y b)).
Proof.
move=> rel; apply: (points_both traj_givenE (tp1_trajE log_pdf grad key rel he)).
by have [S S0 SE] := traj_prop d0 sP sQ log_pdf grad he; exists S.
Qed.

Lemma tp1_near c :
  nearly_keeps_points y target given
    (fun b => E (tp1_traj log_pdf grad (@force_move _) delta key m0 P0 F Qm drift u e y b)) c (force_eps N.+1 c).
Proof.
apply: (points_force (kc := split key 1) (w := tp1_w log_pdf grad (@traj_corr d T delta) u y) traj_givenE).
  by move=> b f; rewrite tp1_trajE //; exact: force_rel.
exact: traj_prop.
Qed.
End FinalTp.

Section FinalImh.
Variables (X : Type) (N : nat) (log_pdf : X -> R) (key : key) (prior : X -> R) (y : {ffun 'I_N.+1 -> X}).
Hypothesis prior0 : forall x, 0 <= prior x.
Lemma imh_points mv : relabels mv ->
  points_kept mv y (fun x => prior x * exp (log_pdf x)) (fun b => \prod_(i | i != b) prior (y i))
    (fun b => E (imh_obs log_pdf mv key prior y b)).
Proof.
move=> rel; apply: (points_both (frefl _) (imh_obsE log_pdf key prior y rel)).
by have [S S0 SE] := imh_prop log_pdf y prior0; exists S.
Qed.
Lemma imh_near c :
  nearly_keeps_points y (fun x => prior x * exp (log_pdf x)) (fun b => \prod_(i | i != b) prior (y i))
    (fun b => E (imh_obs log_pdf (@force_move _) key prior y b)) c (force_eps N.+1 c).
Proof.
apply: (points_force (kc := split key 1) (w := fun i => log_pdf (y i)) (frefl _)); last exact: imh_prop.
by move=> b f; rewrite imh_obsE //; exact: force_rel.
Qed.
End FinalImh.

Lemma noises_exist (d T N : nat) (delta : R) (u : {ffun 'I_T.+1 -> 'cV[R]_d}) (y : {ffun 'I_N.+1 -> {ffun 'I_T.+1 -> 'cV[R]_d}}) :
  0 < delta -> exists e, forall i,
  kalman_draw delta 0 1%:M (fun=> 1%:M) (fun=> 1%:M) (fun=> 0) u (e (y i)) = y i.
Proof.
move=> d0; have s1 : spd (1%:M : 'M[R]_d) by exact: ex_pos.
have [k _ [_ H]] := @kalman_posterior d T delta 0 1%:M (fun=> 1%:M) (fun=> 1%:M) (fun=> 0) d0 s1 (fun=> s1) u.
pose e x := Epsilon.epsilon (inhabits x) (fun e => kalman_draw delta 0 1%:M (fun=> 1%:M) (fun=> 1%:M) (fun=> 0) u e = x).
by exists e => i; apply: (Epsilon.epsilon_spec (inhabits (y i)) (fun e => kalman_draw delta 0 1%:M (fun=> 1%:M) (fun=> 1%:M) (fun=> 0) u e = y i)).
Qed.
