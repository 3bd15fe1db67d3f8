(** * DensityAtp: what atp_csmc_f.py needs to keep the density, at a single time. *)
From Coq Require Import Reals FunctionalExtensionality Lra.
From mathcomp Require Import all_ssreflect all_algebra.
From Verif Require Import RInst Prog ProgTheory Resampling Spec ResamplingProofs.
From Verif Require Import KillingProofs MoveProofs ResamplingSpecs Csmc SmcTheory BackwardProofs.
From Verif Require Import CsmcInvariance CsmcProofs FrozenTheory DensitySpec DensityModel DensityProofs AuxCsmc DensityInst DensityFinal.
From Verif Require Import Gauss GaussSpec GaussProofs MarginalProofs MarginalFinal AuxFinal Kalman KalmanSpec CholProofs KalmanProofs TwistedProofs.
From Verif Require Import Proposal ProposalProofs TpCsmc TpFinal TpReal DensityTp.

Set Implicit Arguments.
Unset Strict Implicit.
Unset Printing Implicit Defensive.
Import GRing.Theory Num.Theory Order.TTheory.
Local Open Scope ring_scope.

Section One.
Variables (X : Type) (n' : nat) (P Q : Type).
Local Notation n := n'.+1.
Local Notation pop := (pop X n').
Variables (md : model X n' P Q) (D0 : 'I_n -> pop -> R) (Dt : P -> pop -> 'I_n -> pop -> R).
Variables (rs : resampler n) (key : key) (y : pop).

Lemma E_one (mv : mover n) b0 f :
  E (drop_weights (kernel rs mv (observed_model md D0 Dt b0 y) key (y b0) [::] b0 [::] [::] [::] false true)) f
  = D0 b0 y * E (mv (split key 2) (normalize (log_w0 md y)) b0) (fun r => f ([:: y r.1], [:: r.1])).
Proof.
rewrite /drop_weights E_bind /kernel E_bind /forward_pass [LHS]E_bind [LHS]E_observed upd_id.
congr (_ * _); cbv beta iota zeta; rewrite [scan _ _ _]/=.
rewrite [LHS]E_bind [LHS]/= [LHS]E_bind /backward_scanning_pass /last_gen /=.
by rewrite [LHS]E_bind; apply: eq_E => -[B a].
Qed.

Lemma E_one_forward b0 (a : R) :
  E (forward_pass rs (observed_model md D0 Dt b0 y) key (y b0) [::] b0 [::] [::] [::] true) (fun=> a) = D0 b0 y * a.
Proof. by rewrite /forward_pass [LHS]E_bind [LHS]E_observed. Qed.

Lemma idx_sum0 (F : 'I_n -> seq 'I_n -> R) : idx_sum 0 F = \sum_b F b [::].
Proof.
apply: eq_bigr => b _; rewrite (big_pred1 [tuple]) // => t; rewrite (tuple0 t) /=; exact/esym/eqP.
Qed.

Lemma one_alike : csmc_keeps md D0 Dt rs (@barker_move _) (fun x xs => exp (Gamma0 md x)) key [::] [::] y [::] ->
  forall k l, D0 k y * exp (M0_logpdf md y k) = D0 l y * exp (M0_logpdf md y l).
Proof.
move=> H.
pose Z := \sum_j exp (Gamma0 md (y j) - M0_logpdf md y j).
have Z0 : Z != 0 by rewrite lt0r_neq0 // sum_exp_gt0.
pose A := \sum_b exp (Gamma0 md (y b)) * D0 b y.
suff E k : D0 k y * exp (M0_logpdf md y k) = A / Z by move=> k l; rewrite !E.
have {H} := H (fun _ bs => if bs == [:: k] then 1 else 0).
rewrite [size _]/= !idx_sum0.
under eq_bigr => b _ do rewrite [X in _ * X]E_one.
under [RHS]eq_bigr => b _ do rewrite E_one_forward.
have bk b : E (barker_move (split key 2) (normalize (log_w0 md y)) b)
    (fun r : 'I_n * R => if [:: r.1] == [:: k] then 1 else 0) = exp (Gamma0 md (y k) - M0_logpdf md y k) / Z.
  rewrite -[LHS](E_index_of (@barker_move n) _ _ _ (fun i => if [:: i] == [:: k] then 1 else 0)) E_barker; last exact: normalize_prob.
  rewrite (bigD1 k) //= eqxx mulr1 big1 ?addr0 => [|i ik]; last by rewrite eqseq_cons andbT (negbTE ik) mulr0.
  by rewrite /log_w0 normalize_normalize normalizeE.
under eq_bigr => b _ do rewrite [E _ _]bk mulrA.
rewrite -mulr_suml -/A (bigD1 k) //= eqxx mulr1 big1 ?addr0; last first.
  by move=> i ik; rewrite eqseq_cons andbT (negbTE ik) !mulr0.
rewrite expRB; have /lt0r_neq0 := expR_gt0 (M0_logpdf md y k); have /lt0r_neq0 := expR_gt0 (Gamma0 md (y k)).
clear bk; move: Z0; move: (exp _) (exp _) A Z (D0 k y); clear => eg em a z dk /eqP z0 /eqP g0 /eqP m0.
have u : em \is a GRing.unit by rewrite unitfE; apply/eqP.
move=> e; have -> : dk = a * (em / eg / z) / em by rewrite e mulrC mulKr.
by clear e u; toR; field.
Qed.
End One.

Section Atp.
Variables (d n' : nat) (Q : Type).
Local Notation vec := 'cV[R]_d.
Local Notation n := n'.+2.
Local Notation pop := (pop vec n'.+1).
Local Notation step := (step d Q).
Variables (mu0 : vec) (mut : vec -> Q -> vec).
Variables (r0 : vec -> R) (rt : vec -> vec -> Q -> R) (g0 : vec -> vec) (gt : vec -> vec -> Q -> vec).
Variables (rs : resampler n) (s0 : step) (key : key).
Variables (rvs0 : Prog.key -> prog pop) (rvs : Prog.key -> pop -> vec * step -> prog pop).
Local Notation D0 := (fun u0 b y => others_given (st_Q s0) (st_ell s0 / 2%:R) (fun=> mu0) u0 y b).
Local Notation Dt := (fun p xm b y => others_given (st_Q p.2) (st_ell p.2 / 2%:R) (fun i => mut (xm i) (st_q p.2)) p.1 y b).
Local Notation target u0 := (path_target (fun x => gauss_kernel (st_Q s0) x mu0 + r0 x
        + gauss_kernel (st_ell s0 / 2%:R)%:M u0 (x + (st_delta s0 / 2%:R) *: g0 x))
      (fun xm x p => gauss_kernel (st_Q p.2) x (mut xm (st_q p.2)) + rt xm x (st_q p.2)
        + gauss_kernel (st_ell p.2 / 2%:R)%:M p.1 (x + (st_delta p.2 / 2%:R) *: gt xm x (st_q p.2))) [::]).

Lemma atp_density_iff : step_ok s0 -> good_resampler rs ->
  (forall u0 y0, csmc_keeps (atp_vec mu0 mut r0 rt g0 gt s0 u0 rvs0 rvs) (D0 u0) Dt rs (@barker_move _) (target u0)
     key [::] [::] y0 [::])
  <-> st_Q s0 = diag_mx (st_G s0).
Proof.
move=> ok gr; split=> [H|dg u0 y0]; last first.
  apply: (@atp_keeps _ _ _ mu0 mut r0 rt g0 gt rs _ s0 [::] key u0 [::]) => //; exact: barker_good.
have [UU G0 l0 eQ cl] := ok.
rewrite eQ -/(Qm (st_U s0) (st_G s0)); apply/(density_iff UU G0 l0 cl); exists (step_pld s0 0) => u m x.
rewrite -/(step_prop s0) step_pldE /gauss_kernel.
move: (x - prop_mean _ _ _) => z.
pose mean := prop_mean (step_prop s0) 0 mu0.
pose y : pop := [ffun i => if i == ord0 then mean + z else mean].
have := H 0 y; set md := atp_vec _ _ _ _ _ _ _ _ _ _ => K.
have {K} K : csmc_keeps md (D0 0) Dt rs (@barker_move _) (fun x xs => exp (Gamma0 md x)) key [::] [::] y [::].
  have e : (fun x (xs : seq vec) => exp (Gamma0 md x)) = target 0.
    apply: functional_extensionality => x1; apply: functional_extensionality => xs1.
    have := @atp_target d Q mu0 mut r0 rt g0 gt s0 0 [::] ok (fun _ (f : False) => match f with end) x1 xs1.
    by rewrite /path_target => <-; congr exp; case: xs1 => [|? ?] /=; rewrite addr0.
  by rewrite e.
have := one_alike K ord0 (lift ord0 ord0); clear K H.
have P i : post_log (st_Q s0) (st_ell s0 / 2%:R) mu0 0 (y i)
  = if i == ord0 then - (quad (invmx (p_chol (step_prop s0) *m (p_chol (step_prop s0))^T)) z / 2%:R) else 0.
  rewrite post_logE // ffunE -/mean /gauss_kernel; case: eqP => _; first by rewrite addrAC subrr add0r.
  by rewrite subrr /quad mulmx0 mxE mul0r oppr0.
have M k : M0_logpdf md y k = step_pld s0 (y k - mean) by [].
have D k : others_given (st_Q s0) (st_ell s0 / 2%:R) (fun=> mu0) 0 y k
  = exp (if k == ord0 then 0 else - (quad (invmx (p_chol (step_prop s0) *m (p_chol (step_prop s0))^T)) z / 2%:R)).
  rewrite /others_given -expR_sum; congr exp.
  under eq_bigr do rewrite P.
  rewrite -big_mkcondr /=; case: eqP => [->|/eqP k0].
    by rewrite big_pred0 // => i; case: eqP.
  by rewrite (big_pred1 ord0) // => i; rewrite andbC /=; case: (i =P ord0) => // ->; rewrite eq_sym k0.
rewrite !D !M !ffunE /= subrr addrAC subrr add0r -!expRD => /exp_inv.
by rewrite add0r.
Qed.
End Atp.

(** A time step of the code for which the density evaluated by atp_csmc_f.py is not the one of the
    proposal: the covariance is rotated. *)
Section Witness.
Variable Q : Type.
Definition step_w (q : Q) : step 2 Q :=
  {| st_delta := 2%:R; st_ell := 2%:R; st_Q := Qm Uw Gw; st_U := Uw; st_G := Gw; st_q := q |}.

Lemma step_w_ok q : step_ok (step_w q).
Proof. by split=> //=; [exact: Uw_orth|exact: Gw_pos|exact: ltr0Sn|exact: Gw_clip]. Qed.

Lemma step_w_rot q : st_Q (step_w q) <> diag_mx (st_G (step_w q)).
Proof. exact: Qw. Qed.
End Witness.

Lemma ex_diag (Q : Type) (q : Q) : exists s : step 2 Q, step_ok s /\ st_Q s = diag_mx (st_G s).
Proof.
exists {| st_delta := 2%:R; st_ell := 2%:R; st_Q := diag_mx Gw; st_U := 1%:M; st_G := Gw; st_q := q |}; split=> //.
split=> /=; [by rewrite trmx1 mulmx1|exact: Gw_pos|exact: ltr0Sn|by rewrite trmx1 mulmx1 mul1mx|exact: Gw_clip].
Qed.
