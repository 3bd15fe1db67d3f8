(** * DensityTp: the density theorem for tp_csmc.py and atp_csmc_f.py on R^d. *)
From Coq Require Import Reals FunctionalExtensionality Lra.
From mathcomp Require Import all_ssreflect all_algebra.
From Verif Require Import RInst Prog ProgTheory Resampling Spec ResamplingProofs.
From Verif Require Import KillingProofs MoveProofs ResamplingSpecs Csmc SmcTheory BackwardProofs.
From Verif Require Import CsmcInvariance CsmcProofs FrozenTheory DensitySpec DensityModel DensityProofs AuxCsmc DensityInst DensityFinal.
From Verif Require Import Gauss GaussSpec GaussProofs MarginalProofs MarginalFinal AuxFinal Kalman KalmanSpec CholProofs KalmanProofs TwistedProofs.
From Verif Require Import Proposal ProposalProofs TpCsmc TpFinal TpReal.

Set Implicit Arguments.
Unset Strict Implicit.
Unset Printing Implicit Defensive.
Import GRing.Theory Num.Theory Order.TTheory.
Local Open Scope ring_scope.

Lemma expR_sum (J : finType) (P : pred J) (F : J -> R) : exp (\sum_(i | P i) F i) = \prod_(i | P i) exp (F i).
Proof. by apply: (big_morph exp expRD); rewrite exp_0. Qed.

Lemma expR_cancel (c h : R) : c * exp h * exp (- h) = c.
Proof. by rewrite -mulrA -expRD subrr exp_0 mulr1. Qed.

Section Step.
Variables (d n' : nat) (Q : Type).
Local Notation vec := 'cV[R]_d.
Local Notation pop := (pop vec n').
Local Notation n := n'.+1.
Local Notation step := (step d Q).

(** What is required of a time step: the result of the SVD of a positive definite matrix, with
    the clipping of the variances at 1e-15 not active. *)
Definition step_ok (s : step) : Prop :=
  [/\ st_U s *m (st_U s)^T = 1%:M, forall i, 0 < st_G s 0 i, 0 < st_ell s,
      st_Q s = st_U s *m diag_mx (st_G s) *m (st_U s)^T
    & forall i, stable_zero <= st_G s 0 i * (st_ell s / 2%:R) / (st_G s 0 i + st_ell s / 2%:R)].

Lemma step_spd s : step_ok s -> spd (st_Q s).
Proof.
case=> UU G0 l0 -> cl; split.
  by rewrite /symmetric !trmx_mul trmxK tr_diag_mx mulmxA.
move=> v v0; rewrite /quad !mulmxA.
have -> : v^T *m st_U s *m diag_mx (st_G s) *m (st_U s)^T *m v
  = ((st_U s)^T *m v)^T *m diag_mx (st_G s) *m ((st_U s)^T *m v) by rewrite trmx_mul trmxK !mulmxA.
have w0 : (st_U s)^T *m v != 0 by apply: contra v0 => /eqP e; rewrite -[v]mul1mx -UU -mulmxA e mulmx0.
move: ((st_U s)^T *m v) w0 => w w0; have [i wi] : exists i, w i 0 != 0.
  apply/existsP; apply: contraR w0 => /existsPn H; apply/eqP/colP => i; rewrite mxE.
  by apply/eqP; have := H i; rewrite negbK.
rewrite mul_mx_diag mxE (bigD1 i) //= ltr_paddr //.
  by apply: sumr_ge0 => j _; rewrite !mxE mulrAC mulr_ge0 ?(ltW (G0 j)) // -expr2 sqr_ge0.
by rewrite !mxE mulrAC mulr_gt0 ?G0 // -expr2 exprn_even_gt0.
Qed.

Lemma step_priorE s m x : step_ok s -> step_prior s m x = gauss_kernel (st_Q s) x m.
Proof. by move=> ok; rewrite /step_prior mvn_inv_cholesky //; exact: step_spd. Qed.

(** The code's proposal is the posterior of the specification. *)
Lemma post_logE s m u x : step_ok s ->
  post_log (st_Q s) (st_ell s / 2%:R) m u x
  = gauss_kernel (p_chol (step_prop s) *m (p_chol (step_prop s))^T) x (prop_mean (step_prop s) u m).
Proof.
case=> UU G0 l0 eQ cl; rewrite /post_log /post_gain eQ -/(Qm (st_U s) (st_G s)) -gainE // /step_prop covE //.
by rewrite /prop_mean !mulmxA.
Qed.

Variable I : (vec -> R) -> R.
Hypotheses (TI : translation_invariant I) (I0 : forall g, (forall u, 0 <= g u) -> 0 <= I g).

Lemma others_margE s (ms : 'I_n -> vec) (y : pop) : step_ok s -> exists c : R, forall b drift,
  others_marg I (st_Q s) (st_ell s / 2%:R) ms drift y b
  = c * exp (get_log_H_bis y (fun i => ms i - step_gain s *m ms i) (step_gain s) (p_K_inv (step_prop s)) (st_ell s)
               (y b) (ms b - step_gain s *m ms b) drift).
Proof.
move=> ok; have [UU G0 l0 eQ cl] := ok.
have [c Hc] := tp_marginal UU G0 l0 cl y ms TI; exists c => b drift.
rewrite -(Hc (b, drift)) /others_marg; apply: (int_ext TI) => u; rewrite expRD expR_sum /others_given.
by congr (_ * _); apply: eq_bigr => i _; rewrite post_logE.
Qed.
End Step.

Section Keeps.
Variables (X : Type) (n' : nat) (P Q : Type).
Local Notation n := n'.+1.
Local Notation pop := (pop X n').
Variables (md : model X n' P Q) (D0 : 'I_n -> pop -> R) (Dt : P -> pop -> 'I_n -> pop -> R).
Variables (rs : resampler n) (mv : mover n) (target : X -> seq X -> R) (key : key) (ps : seq P) (qs : seq Q).
Variables (y0 : pop) (ys : seq pop).
Hypotheses (a0 : alike0 md D0) (at_ : aliket md Dt ps) (rs_good : good_resampler rs).
Hypotheses (sp : size ps = size qs) (sy : size ys = size qs).
Hypothesis tE : forall x xs, target x xs = path_target (Gamma0 md) (Gammat md) qs x xs.

Lemma keeps_of : good_mover mv -> csmc_keeps md D0 Dt rs mv target key ps qs y0 ys.
Proof.
move=> gm f; under idx_sum_ext do rewrite tE; under [RHS]idx_sum_ext do rewrite tE.
exact: csmc_density.
Qed.

Lemma nearly_of c : csmc_nearly_keeps md D0 Dt rs (@force_move _) target key ps qs y0 ys c (force_eps n'.+1 c).
Proof.
move=> f fc; cbv zeta.
under [X in `|X - _|]idx_sum_ext do rewrite tE; under [X in `|_ - X|]idx_sum_ext do rewrite tE.
under [X in _ <= X]idx_sum_ext do rewrite tE.
exact: csmc_nearly.
Qed.
End Keeps.

(** ** tp_csmc.py *)
Section Tp.
Variables (d n' : nat) (Q : Type).
Local Notation vec := 'cV[R]_d.
Local Notation pop := (pop vec n').
Local Notation n := n'.+1.
Local Notation step := (step d Q).
Variable I : (vec -> R) -> R.
Hypotheses (TI : translation_invariant I) (I0 : forall g, (forall u, 0 <= g u) -> 0 <= I g).
Variables (mu0 : vec) (mut : vec -> Q -> vec).
Variables (r0 : vec -> R) (rt : vec -> vec -> Q -> R) (g0 : vec -> vec) (gt : vec -> vec -> Q -> vec).

Lemma others_marg_ge0 (Qm : 'M[R]_d) v ms drift (y : pop) b : 0 <= others_marg I Qm v ms drift y b.
Proof. by apply: I0 => u; apply: mulr_ge0; [|apply: prodr_ge0 => i _]; exact/ltW/expR_gt0. Qed.

Lemma half_drift (s : step) g : (st_delta s / 2%:R) *: g = step_scale s g.
Proof. by rewrite /step_scale /sizes_step mul1r mulrC. Qed.

Lemma tp_alike0 s0 (rvs0 : key -> prog pop) rvs : step_ok s0 ->
  alike0 (tp_vec mu0 mut r0 rt g0 gt s0 rvs0 rvs)
    (fun b y => others_marg I (st_Q s0) (st_ell s0 / 2%:R) (fun=> mu0) ((st_delta s0 / 2%:R) *: g0 (y b)) y b).
Proof.
move=> ok y b b'; split; first exact: others_marg_ge0.
have [c Hc] := @others_margE d n' Q I TI s0 (fun=> mu0) y ok.
by rewrite !Hc !half_drift /tp_vec /= /tp_M0_logpdf /step_H0 !expR_cancel.
Qed.

Lemma tp_aliket s0 (rvs0 : key -> prog pop) rvs (ps : seq (vec * step)) : (forall p, List.In p ps -> step_ok p.2) ->
  aliket (tp_vec mu0 mut r0 rt g0 gt s0 rvs0 rvs)
    (fun p xm b y => others_marg I (st_Q p.2) (st_ell p.2 / 2%:R) (fun i => mut (xm i) (st_q p.2))
       ((st_delta p.2 / 2%:R) *: gt (xm b) (y b) (st_q p.2)) y b) ps.
Proof.
move=> H p ip xm y b b'; split; first exact: others_marg_ge0.
have [c Hc] := @others_margE d n' Q I TI p.2 (fun i => mut (xm i) (st_q p.2)) y (H p ip).
by rewrite !Hc !half_drift /tp_vec /= /tp_Mt_logpdf /step_H /step_gt !expR_cancel.
Qed.

Lemma In_zip2 (A B : Type) (P : B -> Prop) (us : seq A) (ss : seq B) :
  (forall s, List.In s ss -> P s) -> forall p, List.In p (zip us ss) -> P p.2.
Proof.
move=> H p; elim: us ss H => [|u us IH] [|s ss] H //= [<-|ip]; first by apply: H; left.
by apply: (IH ss) => // s' is'; apply: H; right.
Qed.

Lemma log_path_ext (A : Type) (G G' : vec -> vec -> A -> R) (qs : seq A) x xs :
  (forall q, List.In q qs -> forall x y, G x y q = G' x y q) -> log_path G x xs qs = log_path G' x xs qs.
Proof.
elim: qs x xs => [|q qs IH] x [|y xs] H //=; rewrite H; last by left.
by rewrite (IH y xs) // => q' iq; apply: H; right.
Qed.

Lemma tp_target (s0 : step) ss : step_ok s0 -> (forall s, List.In s ss -> step_ok s) -> forall x xs,
  path_target (tp_Gamma_0 (step_prior0 mu0 s0) r0) (tp_Gamma_t (step_prior_t mut) (step_rt rt)) ss x xs
  = path_target (fun x => gauss_kernel (st_Q s0) x mu0 + r0 x)
      (fun xm x s => gauss_kernel (st_Q s) x (mut xm (st_q s)) + rt xm x (st_q s)) ss x xs.
Proof.
move=> ok0 ok x xs; rewrite /path_target /tp_Gamma_0 /step_prior0 step_priorE //; congr (exp (_ + _)).
by apply: log_path_ext => s is_ xm y; rewrite /tp_Gamma_t /step_prior_t /step_rt step_priorE //; apply: ok.
Qed.

Variables (rs : resampler n) (mv : mover n) (s0 : step) (ss : seq step) (key : key) (us : seq vec).
Variables (rvs0 : Prog.key -> prog pop) (rvs : Prog.key -> pop -> vec * step -> prog pop) (y0 : pop) (ys : seq pop).
Hypotheses (ok0 : step_ok s0) (ok : forall s, List.In s ss -> step_ok s) (rs_good : good_resampler rs).
Hypotheses (su : size us = size ss) (sy : size ys = size ss).
Local Notation D0 := (fun b y => others_marg I (st_Q s0) (st_ell s0 / 2%:R) (fun=> mu0) ((st_delta s0 / 2%:R) *: g0 (y b)) y b).
Local Notation Dt := (fun p xm b y => others_marg I (st_Q p.2) (st_ell p.2 / 2%:R) (fun i => mut (xm i) (st_q p.2))
       ((st_delta p.2 / 2%:R) *: gt (xm b) (y b) (st_q p.2)) y b).
Local Notation target := (path_target (fun x => gauss_kernel (st_Q s0) x mu0 + r0 x)
      (fun xm x s => gauss_kernel (st_Q s) x (mut xm (st_q s)) + rt xm x (st_q s)) ss).

Lemma size_us : size (zip us ss) = size ss. Proof. by rewrite size_zip su minnn. Qed.

Lemma tp_keeps : good_mover mv ->
  csmc_keeps (tp_vec mu0 mut r0 rt g0 gt s0 rvs0 rvs) D0 Dt rs mv target key (zip us ss) ss y0 ys.
Proof.
move=> gm; apply: keeps_of => //; [exact: tp_alike0| |exact: size_us|].
  by apply: tp_aliket => p; apply: In_zip2.
by move=> x xs; rewrite -tp_target.
Qed.

Lemma tp_nearly c :
  csmc_nearly_keeps (tp_vec mu0 mut r0 rt g0 gt s0 rvs0 rvs) D0 Dt rs (@force_move _) target key (zip us ss) ss y0 ys
    c (force_eps n'.+1 c).
Proof.
apply: nearly_of => //; [exact: tp_alike0| |exact: size_us|].
  by apply: tp_aliket => p; apply: In_zip2.
by move=> x xs; rewrite -tp_target.
Qed.
End Tp.

(** ** atp_csmc_f.py *)
Section Atp.
Variables (d n' : nat) (Q : Type).
Local Notation vec := 'cV[R]_d.
Local Notation pop := (pop vec n').
Local Notation n := n'.+1.
Local Notation step := (step d Q).
Variables (mu0 : vec) (mut : vec -> Q -> vec).
Variables (r0 : vec -> R) (rt : vec -> vec -> Q -> R) (g0 : vec -> vec) (gt : vec -> vec -> Q -> vec).

Lemma step_pldE (s : step) u m x : prop_logpdf (step_prop s) u m x = step_pld s (x - prop_mean (step_prop s) u m).
Proof. by rewrite /prop_logpdf /step_pld /mvn_logpdf /logpdf_with_inv !subr0. Qed.

Lemma step_pld_post (s : step) : step_ok s -> st_Q s = diag_mx (st_G s) -> exists c, forall u m x,
  step_pld s (x - prop_mean (step_prop s) u m) = post_log (st_Q s) (st_ell s / 2%:R) m u x + c.
Proof.
move=> ok dg; have [UU G0 l0 eQ cl] := ok.
have [c Hc] := proj2 (density_iff UU G0 l0 cl) (etrans (esym eQ) dg).
by exists c => u m x; rewrite -step_pldE Hc post_logE.
Qed.

Lemma others_alike (F : 'I_n -> R) (c : R) b b' :
  (\prod_(i | i != b) exp (F i)) * exp (F b + c) = (\prod_(i | i != b') exp (F i)) * exp (F b' + c).
Proof.
have E k : (\prod_(i | i != k) exp (F i)) * exp (F k + c) = exp c * \prod_i exp (F i).
  by rewrite (bigD1 k (P := xpredT)) //= expRD; move: (\prod_(i | i != k) _) (exp (F k)) (exp c); clear; move=> *; toR; ring.
by rewrite !E.
Qed.

Lemma others_given_ge0 (Qm : 'M[R]_d) v ms u (y : pop) b : 0 <= others_given Qm v ms u y b.
Proof. by apply: prodr_ge0 => i _; exact/ltW/expR_gt0. Qed.

Lemma atp_alike0 s0 u0 (rvs0 : key -> prog pop) rvs : step_ok s0 -> st_Q s0 = diag_mx (st_G s0) ->
  alike0 (atp_vec mu0 mut r0 rt g0 gt s0 u0 rvs0 rvs)
    (fun b y => others_given (st_Q s0) (st_ell s0 / 2%:R) (fun=> mu0) u0 y b).
Proof.
move=> ok dg y b b'; split; first exact: others_given_ge0.
have [c Hc] := step_pld_post ok dg.
rewrite /atp_vec /= /atp_M0_logpdf /step_mean0 !Hc.
exact: (others_alike (fun i => post_log (st_Q s0) (st_ell s0 / 2%:R) mu0 u0 (y i))).
Qed.

Lemma atp_aliket s0 u0 (rvs0 : key -> prog pop) rvs (ps : seq (vec * step)) :
  (forall p, List.In p ps -> step_ok p.2 /\ st_Q p.2 = diag_mx (st_G p.2)) ->
  aliket (atp_vec mu0 mut r0 rt g0 gt s0 u0 rvs0 rvs)
    (fun p xm b y => others_given (st_Q p.2) (st_ell p.2 / 2%:R) (fun i => mut (xm i) (st_q p.2)) p.1 y b) ps.
Proof.
move=> H p ip xm y b b'; split; first exact: others_given_ge0.
have [ok dg] := H p ip; have [c Hc] := step_pld_post ok dg.
rewrite /atp_vec /= /atp_Mt_logpdf /step_mean !Hc.
exact: (others_alike (fun i => post_log (st_Q p.2) (st_ell p.2 / 2%:R) (mut (xm i) (st_q p.2)) p.1 (y i))).
Qed.

Lemma step_ldE (s : step) u x g : step_ld s (u - x - step_scale s g)
  = gauss_kernel (st_ell s / 2%:R)%:M u (x + (st_delta s / 2%:R) *: g).
Proof. by rewrite half_drift /step_ld -(noise_ld (st_delta s, st_ell s)) [RHS]noise_shift opprD addrA. Qed.

Lemma atp_target (s0 : step) u0 (ps : seq (vec * step)) : step_ok s0 -> (forall p, List.In p ps -> step_ok p.2) -> forall x xs,
  path_target (atp_Gamma_0 (step_ld s0) (step_scale s0) (step_prior0 mu0 s0) r0 g0 u0)
    (atp_Gamma_t (@step_ld d Q) (@step_scale d Q) (step_prior_t mut) (step_rt rt) (step_gt gt)) ps x xs
  = path_target (fun x => gauss_kernel (st_Q s0) x mu0 + r0 x
        + gauss_kernel (st_ell s0 / 2%:R)%:M u0 (x + (st_delta s0 / 2%:R) *: g0 x))
      (fun xm x p => gauss_kernel (st_Q p.2) x (mut xm (st_q p.2)) + rt xm x (st_q p.2)
        + gauss_kernel (st_ell p.2 / 2%:R)%:M p.1 (x + (st_delta p.2 / 2%:R) *: gt xm x (st_q p.2))) ps x xs.
Proof.
move=> ok0 ok x xs; rewrite /path_target /atp_Gamma_0 /step_prior0 step_priorE // step_ldE; congr (exp (_ + _)).
apply: log_path_ext => p ip xm y; rewrite /atp_Gamma_t /step_prior_t /step_rt /step_gt step_priorE; last exact: ok.
by rewrite step_ldE.
Qed.

Variables (rs : resampler n) (mv : mover n) (s0 : step) (ss : seq step) (key : key) (u0 : vec) (us : seq vec).
Variables (rvs0 : Prog.key -> prog pop) (rvs : Prog.key -> pop -> vec * step -> prog pop) (y0 : pop) (ys : seq pop).
Hypotheses (ok0 : step_ok s0 /\ st_Q s0 = diag_mx (st_G s0)).
Hypotheses (ok : forall s, List.In s ss -> step_ok s /\ st_Q s = diag_mx (st_G s)) (rs_good : good_resampler rs).
Hypotheses (su : size us = size ss) (sy : size ys = size ss).
Local Notation D0 := (fun b y => others_given (st_Q s0) (st_ell s0 / 2%:R) (fun=> mu0) u0 y b).
Local Notation Dt := (fun p xm b y => others_given (st_Q p.2) (st_ell p.2 / 2%:R) (fun i => mut (xm i) (st_q p.2)) p.1 y b).
Local Notation target := (path_target (fun x => gauss_kernel (st_Q s0) x mu0 + r0 x
        + gauss_kernel (st_ell s0 / 2%:R)%:M u0 (x + (st_delta s0 / 2%:R) *: g0 x))
      (fun xm x p => gauss_kernel (st_Q p.2) x (mut xm (st_q p.2)) + rt xm x (st_q p.2)
        + gauss_kernel (st_ell p.2 / 2%:R)%:M p.1 (x + (st_delta p.2 / 2%:R) *: gt xm x (st_q p.2))) (zip us ss)).

Lemma In_ok p : List.In p (zip us ss) -> step_ok p.2 /\ st_Q p.2 = diag_mx (st_G p.2).
Proof. exact: (In_zip2 (P := fun s => step_ok s /\ st_Q s = diag_mx (st_G s))). Qed.

Lemma atp_keeps : good_mover mv ->
  csmc_keeps (atp_vec mu0 mut r0 rt g0 gt s0 u0 rvs0 rvs) D0 Dt rs mv target key (zip us ss) (zip us ss) y0 ys.
Proof.
move=> gm; have [ok1 dg] := ok0; apply: keeps_of;
  [exact: atp_alike0|by apply: atp_aliket => p; apply: In_ok|exact: rs_good|by []|by rewrite size_us| |exact: gm].
move=> x xs; symmetry; apply: atp_target; first exact: ok1.
by move=> p ip; have [] := In_ok ip.
Qed.

Lemma atp_nearly c :
  csmc_nearly_keeps (atp_vec mu0 mut r0 rt g0 gt s0 u0 rvs0 rvs) D0 Dt rs (@force_move _) target key (zip us ss) (zip us ss) y0 ys
    c (force_eps n'.+1 c).
Proof.
have [ok1 dg] := ok0; apply: nearly_of;
  [exact: atp_alike0|by apply: atp_aliket => p; apply: In_ok|exact: rs_good|by []|by rewrite size_us| ].
move=> x xs; symmetry; apply: atp_target; first exact: ok1.
by move=> p ip; have [] := In_ok ip.
Qed.
End Atp.
