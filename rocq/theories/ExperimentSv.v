(** * ExperimentSv: the densities of the stochastic volatility experiment. *)
From Coq Require Import Reals Lra.
From mathcomp Require Import all_ssreflect all_algebra.
From Verif Require Import RInst Gauss GaussSpec GaussProofs MarginalProofs Proposal ProposalProofs ResamplingProofs Kalman KalmanSpec CholProofs
  KalmanProofs KalmanPaths Twisted TwistedProofs Experiments ExperimentSpec ExperimentProofs.

Set Implicit Arguments.
Unset Strict Implicit.
Unset Printing Implicit Defensive.
Import GRing.Theory Num.Theory Order.TTheory.
Local Open Scope ring_scope.

Lemma exp_half_sq (a : R) : exp (1 / 2%:R * a) ^+ 2 = exp a.
Proof. by rewrite expr2 -[LHS]exp_plus; congr exp; toR; lra. Qed.

Lemma sv_potentialE d (x y : 'cV[R]_d) : sv_log_potential x y = vol_logpdf x y.
Proof.
rewrite /sv_log_potential /vol_logpdf.
have -> : \row_i exp (x i 0) = \row_i exp (1 / 2%:R * x i 0) ^+ 2 by apply/rowP => i; rewrite !mxE exp_half_sq.
rewrite -(norm_sum y 0 (s := fun i => exp (1 / 2%:R * x i 0))); last by move=> i; apply/RltE; exact: exp_pos.
by apply: eq_bigr => i _; rewrite mxE.
Qed.

Definition lcst d (S : 'M[R]_d) : R := ln (\det S) / 2%:R + d%:R * ln (2%:R * PI) / 2%:R.
Lemma mvnE d (S : 'M[R]_d) x m : spd S -> mvn_logpdf x m 0 (Some (inv_chol S)) false = lcst S + gauss_logpdf S x m.
Proof.
move=> hS; rewrite inv_cholE (mvn_inv_cholesky _ _ hS) kernelE /lcst.
by move: (gauss_logpdf _ _ _) (ln _) (d%:R * _ / _) => *; toR; lra.
Qed.

Section Targets.
Variables (d T : nat) (m0 : 'cV[R]_d) (P0 F Q : 'M[R]_d) (b : 'cV[R]_d) (y : nat -> 'cV[R]_d).
Hypotheses (hP : spd P0) (hQ : spd Q).
Local Notation joint := (vol_joint T m0 P0 F Q b y).

Lemma sv_steps (G0 : 'cV[R]_d -> R) (Gt : 'cV[R]_d -> 'cV[R]_d -> 'cV[R]_d -> R) (c0 c : R) :
  (forall x, G0 x = c0 + (vol_logpdf x (y 0%N) + gauss_logpdf P0 x m0)) ->
  (forall xp x z, Gt xp x z = c + (vol_logpdf x z + gauss_logpdf Q x (F *m xp + b))) ->
  same_density (fun x : nat -> 'cV[R]_d => G0 (x 0%N) + \sum_(t < T) Gt (x t) (x t.+1) (y t.+1)) joint.
Proof.
move=> h0 h; exists (c0 + T%:R * c) => x; rewrite /vol_joint /chain_logpdf h0.
under eq_bigr do rewrite h.
rewrite big_split big_split /= sumr_const card_ord -[c *+ T]mulr_natl.
have -> : \sum_(t < T.+1) vol_logpdf (x t) (y t) = vol_logpdf (x 0%N) (y 0%N) + \sum_(t < T) vol_logpdf (x t.+1) (y t.+1).
  by rewrite big_ord_recl.
move: (\sum_(i < T) _) (\sum_(i < T) _) (gauss_logpdf _ _ _) (vol_logpdf _ _) (T%:R * c); clear.
by move=> *; toR; lra.
Qed.

Lemma sv_csmc_target : same_density (fun x => sv_csmc_Gamma_0 m0 P0 (y 0%N) (x 0%N)
  + \sum_(t < T) sv_csmc_Gamma_t F Q b (x t) (x t.+1) (y t.+1)) joint.
Proof.
apply: (@sv_steps _ _ (lcst P0) (lcst Q)) => *; rewrite /sv_csmc_Gamma_0 /sv_csmc_Gamma_t /sv_M0_logpdf /sv_Mt_logpdf sv_potentialE mvnE //;
by rewrite addrCA.
Qed.
Lemma sv_mala_csmc_target : same_density (fun x => sv_mala_Gamma_0 m0 P0 (y 0%N) (x 0%N)
  + \sum_(t < T) sv_mala_Gamma_t F Q b (x t) (x t.+1) (y t.+1)) joint.
Proof.
apply: (@sv_steps _ _ (lcst P0) (lcst Q)) => *; rewrite /sv_mala_Gamma_0 /sv_mala_Gamma_t sv_potentialE mvnE //;
by rewrite addrCA.
Qed.
Lemma sv_rw_csmc_target : same_density (fun x => sv_rw_Gamma_0 m0 P0 (y 0%N) (x 0%N)
  + \sum_(t < T) sv_rw_Gamma_t F Q b (x t) (x t.+1) (y t.+1)) joint.
Proof.
apply: (@sv_steps _ _ (lcst P0) (lcst Q)) => *; rewrite /sv_rw_Gamma_0 /sv_rw_Gamma_t sv_potentialE mvnE //;
by rewrite addrCA.
Qed.
Lemma sv_tp_csmc_target : same_density (fun x => prior_Gamma_0 m0 P0 (sv_r0 (y 0%N)) (x 0%N)
  + \sum_(t < T) prior_Gamma_t (sv_mut F b) Q (@sv_rt d) (x t) (x t.+1) (y t.+1)) joint.
Proof.
apply: (@sv_steps _ _ (lcst P0) (lcst Q)) => *; rewrite /prior_Gamma_0 /prior_Gamma_t /sv_r0 /sv_rt /sv_mut sv_potentialE mvnE //;
by rewrite -addrA; congr (_ + _); rewrite addrC.
Qed.
Lemma sv_log_likelihoodE x : sv_log_pdf_ys (mkseq y T.+1) (mkseq x T.+1) = \sum_(t < T.+1) vol_logpdf (x t) (y t).
Proof. by rewrite /sv_log_pdf_ys /sv_log_likelihood big_zip_mkseq; apply: eq_bigr => t _ /=; rewrite sv_potentialE. Qed.
Lemma sv_prior_target x : chain_logpdf T m0 P0 (fun=> F) (fun=> Q) (fun=> b) x + sv_log_pdf_ys (mkseq y T.+1) (mkseq x T.+1) = joint x.
Proof. by rewrite sv_log_likelihoodE. Qed.

(** The density given to MALA. *)
Definition mala_joint (x : nat -> 'cV[R]_d) : R :=
  gauss_logpdf P0 (x 0%N) m0 + \sum_(t < T) gauss_logpdf Q (x t.+1) (sv_pred F b (x t)) + \sum_(t < T.+1) vol_logpdf (x t) (y t).
Lemma sv_mala_actual : same_density (fun x => sv_full_log_pdf m0 P0 F Q b (mkseq y T.+1) (mkseq x T.+1)) mala_joint.
Proof.
exists (lcst P0 + T%:R * lcst Q) => x; rewrite /sv_full_log_pdf /sv_log_pdf big_steps mvnE //= -/(sv_log_pdf_ys _ _) sv_log_likelihoodE /mala_joint.
under [in LHS]eq_bigr do rewrite mvnE //.
rewrite big_split /= sumr_const card_ord -[_ *+ T]mulr_natl.
move: (\sum_(i < T) _) (\sum_(i < T.+1) _) (gauss_logpdf _ _ _) (lcst P0) (T%:R * _); clear.
by move=> *; toR; lra.
Qed.
End Targets.

(** Two Gaussian transitions that give the same joint density are equal. *)
Lemma same_transition d T (Q Q' : 'M[R]_d) (p p' : 'cV[R]_d -> 'cV[R]_d) (f f' : 'cV[R]_d -> R) (g : (nat -> 'cV[R]_d) -> R) :
  spd Q -> spd Q' -> (0 < T)%N ->
  same_density (fun x : nat -> 'cV[R]_d => f (x 0%N) + \sum_(t < T) gauss_logpdf Q (x t.+1) (p (x t)) + g x)
    (fun x => f' (x 0%N) + \sum_(t < T) gauss_logpdf Q' (x t.+1) (p' (x t)) + g x) ->
  Q = Q' /\ forall z, p z = p' z.
Proof.
move=> hQ hQ'; case: T => // T _ [c H].
have K z : Q = Q' /\ p z = p' z.
  pose X w t : 'cV[R]_d := if t == T.+1 then w else z.
  have Xlt w t : (t <= T)%N -> X w t = z by move=> h; rewrite /X ltn_eqF.
  have XT w : X w T.+1 = w by rewrite /X eqxx.
  have S (q : 'M[R]_d) (pp : 'cV[R]_d -> 'cV[R]_d) w : \sum_(t < T.+1) gauss_logpdf q (X w t.+1) (pp (X w t)) = \sum_(t < T) gauss_logpdf q z (pp z) + gauss_logpdf q w (pp z).
    rewrite big_ord_recr /= XT (Xlt w T) //; congr (_ + _).
    by apply: eq_bigr => t _; rewrite !Xlt // ltnW.
  apply: (@gauss_unique _ Q Q' (p z) (p' z)
    (c + f' z - f z + \sum_(t < T) gauss_logpdf Q' z (p' z) - \sum_(t < T) gauss_logpdf Q z (p z))) => // w.
  move: (H (X w)); rewrite !S !Xlt //.
  move: (\sum_(t < T) gauss_logpdf Q z (p z)) (\sum_(t < T) gauss_logpdf Q' z (p' z)) (f z) (f' z) (g _) (gauss_logpdf _ _ _) (gauss_logpdf _ _ _); clear.
  by move=> *; toR; lra.
by split=> [|z]; [case: (K 0) | case: (K z)].
Qed.

Section Mala.
Variables (d T : nat) (m0 : 'cV[R]_d) (P0 F Q : 'M[R]_d) (b : 'cV[R]_d) (y : nat -> 'cV[R]_d).
Hypotheses (hP : spd P0) (hQ : spd Q).

Lemma same_trans (X : Type) (f g h : X -> R) : same_density f g -> same_density g h -> same_density f h.
Proof. by case=> c H [c' H']; exists (c + c') => x; rewrite H H' addrA. Qed.
Lemma same_sym (X : Type) (f g : X -> R) : same_density f g -> same_density g f.
Proof. by case=> c H; exists (- c) => x; rewrite H addKr. Qed.

Lemma sv_mala_iff : (0 < T)%N ->
  same_density (fun x => sv_full_log_pdf m0 P0 F Q b (mkseq y T.+1) (mkseq x T.+1)) (vol_joint T m0 P0 F Q b y)
  <-> forall z, sv_pred F b z = F *m z + b.
Proof.
move=> T0; split=> [H | H].
  have H' := same_trans (same_sym (sv_mala_actual T m0 F b y hP hQ)) H.
  by have [] := @same_transition _ T _ _ (sv_pred F b) (fun z => F *m z + b) (gauss_logpdf P0 ^~ m0) (gauss_logpdf P0 ^~ m0) _ hQ hQ T0 H'.
apply: same_trans (sv_mala_actual T m0 F b y hP hQ) _; exists 0 => x; rewrite add0r /mala_joint /vol_joint /chain_logpdf.
by congr (_ + _ + _); apply: eq_bigr => t _; rewrite H.
Qed.

Lemma sv_mala_single : T = 0%N ->
  same_density (fun x => sv_full_log_pdf m0 P0 F Q b (mkseq y T.+1) (mkseq x T.+1)) (vol_joint T m0 P0 F Q b y).
Proof.
move=> T0; apply: same_trans (sv_mala_actual T m0 F b y hP hQ) _; exists 0 => x; rewrite add0r /mala_joint /vol_joint /chain_logpdf T0.
by rewrite !big_ord0.
Qed.
End Mala.

(** ** get_dynamics *)
Section Dynamics.
Variable d : nat.
Local Notation vec := 'cV[R]_d.
Local Notation mat := 'M[R]_d.

Lemma get_dynamicsE nu phi tau rho : get_dynamics d nu phi tau rho
  = (const_mx nu, equicorrelated d (tau / (1 - phi ^+ 2)) rho, phi%:M, equicorrelated d tau rho, const_mx ((1 + phi) * nu)).
Proof.
rewrite /get_dynamics /stationary_covariance linearZ /= mxvecK; congr (_, _, _, _, _).
- by apply/colP => i; rewrite !mxE mulr1.
- by apply/matrixP => i j; rewrite !mxE; case: (i == j); rewrite mulrC ?mulrA // mulrAC.
- by rewrite scalemx1.
by rewrite scalemx1 mul_scalar_mx; apply/colP => i; rewrite !mxE mulr1 mulrDl mul1r.
Qed.

Lemma equi_quad a r (v : vec) : quad (equicorrelated d a r) v = a * ((1 - r) * (\sum_i v i 0 ^+ 2) + r * (\sum_i v i 0) ^+ 2).
Proof.
have -> : equicorrelated d a r = (a * (1 - r))%:M + (a * r) *: const_mx 1.
  apply/matrixP => i j; rewrite !mxE mulr1; case: eqP => _; last by rewrite mulr0n add0r.
  by rewrite mulr1n mulrBr mulr1 subrK.
rewrite /quad mulmxDr mulmxDl mxE [RHS]mulrDr (mulrA a (1 - r)) (mulrA a r); congr (_ + _).
  rewrite -scalemx1 -scalemxAr -scalemxAl mulmx1 !mxE; congr (_ * _).
  by apply: eq_bigr => i _; rewrite !mxE expr2.
rewrite -scalemxAr -scalemxAl !mxE; congr (_ * _); rewrite expr2 mulr_sumr; apply: eq_bigr => i _.
congr (_ * _); rewrite !mxE; apply: eq_bigr => j _; by rewrite !mxE mulr1.
Qed.

Lemma sum_sq_le (v : vec) : (\sum_i v i 0) ^+ 2 <= d%:R * \sum_i v i 0 ^+ 2.
Proof.
have h : 0 <= \sum_i \sum_j (v i 0 - v j 0) ^+ 2 by apply: sumr_ge0 => i _; apply: sumr_ge0 => j _; exact: sqr_ge0.
have e : \sum_i \sum_j (v i 0 - v j 0) ^+ 2 = 2%:R * (d%:R * \sum_i v i 0 ^+ 2) - 2%:R * (\sum_i v i 0) ^+ 2.
  under eq_bigr do under eq_bigr do rewrite sqrrB.
  under eq_bigr do rewrite big_split big_split /= sumr_const card_ord sumrN.
  rewrite big_split big_split /= sumr_const card_ord -[X in _ + X = _]mulr_natl.
  under eq_bigr do rewrite -[_ *+ d]mulr_natl.
  rewrite -mulr_sumr sumrN; under [X in _ - X + _]eq_bigr do rewrite sumrMnl -mulr_natl -mulr_sumr.
  rewrite -mulr_sumr -mulr_suml expr2; move: (\sum_i _) (\sum_i _) => p q; toR; ring.
by move: h; rewrite e -mulrBr pmulr_rge0 ?ltr0n // subr_ge0.
Qed.

Lemma equi_spd a r : 0 < a -> r < 1 -> 0 < 1 + (d%:R - 1) * r -> spd (equicorrelated d a r).
Proof.
move=> a0 r1 rd; split; first by apply/matrixP => i j; rewrite !mxE eq_sym.
move=> v v0; rewrite equi_quad mulr_gt0 //.
have s0 : 0 < \sum_i v i 0 ^+ 2.
  have := @positive_scalar d 1 ltr01 v v0; rewrite /quad mulmx1 mxE.
  by under eq_bigr do rewrite mxE -expr2.
have le := sum_sq_le v; have ge := sqr_ge0 (\sum_i v i 0); move: s0 le ge.
move: (\sum_i v i 0 ^+ 2) ((\sum_i v i 0) ^+ 2) => S2 q S0 le ge; have [r0|r0] := leP 0 r.
  by rewrite ltr_spaddl ?mulr_gt0 ?mulr_ge0 ?subr_gt0.
apply: lt_le_trans (_ : (1 + (d%:R - 1) * r) * S2 <= _); first exact: mulr_gt0.
have h : r * (d%:R * S2) <= r * q by rewrite ler_nmul2l.
rewrite [X in X <= _](_ : _ = (1 - r) * S2 + r * (d%:R * S2)) ?ler_add2l //.
by move: (d%:R : R) => n; toR; ring.
Qed.

(** Stationarity of the covariance. *)
Lemma equi_fixed phi tau rho : phi ^+ 2 != 1 -> let P0 := equicorrelated d (tau / (1 - phi ^+ 2)) rho in
  phi%:M *m P0 *m phi%:M^T + equicorrelated d tau rho = P0.
Proof.
move=> p1 P0; rewrite tr_scalar_mx mul_scalar_mx mul_mx_scalar scalerA -expr2.
have nz : 1 - phi ^+ 2 != 0 by rewrite subr_eq0 eq_sym.
by apply/matrixP => i j; rewrite !mxE; case: (i == j); move: (phi ^+ 2) nz => p /eqP nz; toR; field.
Qed.
Lemma cov_fixed nu phi tau rho : phi ^+ 2 != 1 ->
  let: (_, P0, F, Q, _) := get_dynamics d nu phi tau rho in F *m P0 *m F^T + Q = P0.
Proof. by move=> p1; rewrite get_dynamicsE; exact: equi_fixed. Qed.

Lemma mean_fixed_iff nu phi tau rho : (0 < d)%N ->
  (let: (m0, _, F, _, b) := get_dynamics d nu phi tau rho in F *m m0 + b = m0) <-> nu * phi = 0.
Proof.
move=> d0; rewrite get_dynamicsE mul_scalar_mx; split=> [H | H].
  have := congr1 (fun M : 'cV[R]_d => M (Ordinal d0) 0) H; rewrite !mxE.
  by clear; toR => h; lra.
by apply/colP => i; rewrite !mxE; move: H; clear; toR => h; lra.
Qed.

Lemma stationary_moments nu phi tau rho t : phi ^+ 2 != 1 -> nu * phi = 0 ->
  let: (m0, P0, F, Q, b) := get_dynamics d nu phi tau rho in
  mean_at m0 (fun=> F) (fun=> b) t = m0 /\ cov_at P0 (fun=> F) (fun=> Q) t = P0.
Proof.
move=> p1 np; rewrite get_dynamicsE; elim: t => //= t [-> ->]; split; last by rewrite addrC equi_fixed.
by rewrite mul_scalar_mx; apply/colP => i; rewrite !mxE; move: np; clear; toR => h; lra.
Qed.

Lemma cov_moments nu phi tau rho t : phi ^+ 2 != 1 ->
  let: (_, P0, F, Q, _) := get_dynamics d nu phi tau rho in cov_at P0 (fun=> F) (fun=> Q) t = P0.
Proof. by move=> p1; rewrite get_dynamicsE; elim: t => //= t ->; rewrite addrC equi_fixed. Qed.

Lemma equi_dyn_spd phi tau rho : 0 < tau -> phi ^+ 2 < 1 -> rho < 1 -> 0 < 1 + (d%:R - 1) * rho ->
  spd (equicorrelated d (tau / (1 - phi ^+ 2)) rho) /\ spd (equicorrelated d tau rho).
Proof.
move=> t0 p1 r1 rd; split; apply: equi_spd => //.
by rewrite divr_gt0 // subr_gt0.
Qed.
Lemma dynamics_spd nu phi tau rho : 0 < tau -> phi ^+ 2 < 1 -> rho < 1 -> 0 < 1 + (d%:R - 1) * rho ->
  let: (_, P0, _, Q, _) := get_dynamics d nu phi tau rho in spd P0 /\ spd Q.
Proof.
move=> t0 p1 r1 rd; rewrite get_dynamicsE; exact: equi_dyn_spd.
Qed.
End Dynamics.

(** The mean leaves its initial value. *)
Lemma mean_moves : let: (m0, _, F, _, b) := get_dynamics 1 1 (1 / 2%:R) 1 0 in F *m m0 + b <> m0.
Proof.
have := @mean_fixed_iff 1 1 (1 / 2%:R) 1 0 isT; rewrite get_dynamicsE => H /H.
by toR => h; lra.
Qed.

(** MALA at the parameters of the experiment (nu = 0). *)
Lemma sv_mala_bad d T phi tau rho (y : nat -> 'cV[R]_d) : (0 < d)%N -> (0 < T)%N ->
  0 < tau -> phi ^+ 2 < 1 -> phi != 0 -> rho < 1 -> 0 < 1 + (d%:R - 1) * rho ->
  let: (m0, P0, F, Q, b) := get_dynamics d 0 phi tau rho in
  ~ same_density (fun x => sv_full_log_pdf m0 P0 F Q b (mkseq y T.+1) (mkseq x T.+1)) (vol_joint T m0 P0 F Q b y).
Proof.
move=> d0 T0 t0 p1 pn r1 rd; rewrite get_dynamicsE; have [hP hQ] := equi_dyn_spd t0 p1 r1 rd.
move/(sv_mala_iff _ _ _ _ hP hQ T0) => /(_ (const_mx 1)).
move/(congr1 (fun M : 'cV[R]_d => M (Ordinal d0) 0)); rewrite mul_scalar_mx !mxE.
rewrite big1; last by move=> j _; rewrite !mxE mulr0 mulr0.
by rewrite mulr0 addr0 mulr1 => /eqP; rewrite eq_sym (negbTE pn).
Qed.

Lemma sv_mala_iid d T phi tau rho (y : nat -> 'cV[R]_d) :
  0 < tau -> phi ^+ 2 < 1 -> rho < 1 -> 0 < 1 + (d%:R - 1) * rho ->
  let: (m0, P0, F, Q, b) := get_dynamics d 0 phi tau rho in
  same_density (fun x => sv_full_log_pdf m0 P0 F Q b (mkseq y T.+1) (mkseq x T.+1))
    (fun x => gauss_logpdf P0 (x 0%N) 0 + \sum_(t < T) gauss_logpdf Q (x t.+1) 0 + \sum_(t < T.+1) vol_logpdf (x t) (y t)).
Proof.
move=> t0 p1 r1 rd; rewrite get_dynamicsE; have [hP hQ] := equi_dyn_spd t0 p1 r1 rd.
apply: same_trans (sv_mala_actual _ _ _ _ _ hP hQ) _; exists 0 => x; rewrite add0r /mala_joint.
congr (_ + _ + _); last apply: eq_bigr => t _; congr gauss_logpdf; apply/colP => i; rewrite !mxE //.
by rewrite big1 // => j _; rewrite !mxE !mulr0.
Qed.
