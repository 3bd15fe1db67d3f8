(** * ExperimentMore: data generators, initial draws, recorded energy, proposals and twisted
    targets of the experiments. *)
From Coq Require Import Reals Lra.
From mathcomp Require Import all_ssreflect all_algebra.
From Verif Require Import RInst Gauss GaussSpec GaussProofs MarginalProofs Proposal ProposalProofs ResamplingProofs Kalman KalmanSpec CholProofs
  KalmanProofs KalmanPaths Twisted TwistedProofs Experiments ExperimentSpec ExperimentProofs ExperimentSv.

Set Implicit Arguments.
Unset Strict Implicit.
Unset Printing Implicit Defensive.
Import GRing.Theory Num.Theory Order.TTheory.
Local Open Scope ring_scope.

(** ** Factors of diagonal matrices *)
Lemma diag_spd d (v : 'rV[R]_d) : (forall i, 0 < v 0 i) -> spd (diag_mx v).
Proof.
move=> v0; split; first by rewrite /symmetric tr_diag_mx.
move=> z z0; rewrite quadE mul_diag_mx dotvE.
have [i zi] : exists i, z i 0 != 0.
  apply/existsP; apply: contraNT z0; rewrite negb_exists => /forallP H; apply/eqP/colP => i.
  by have := H i; rewrite negbK mxE => /eqP.
have nn j : 0 <= z j 0 * (\matrix_(i, k) (v 0 i * z i k)) j 0.
  by rewrite mxE mulrCA -expr2 mulr_ge0 ?sqr_ge0 // ltW.
rewrite (bigD1 i) //= ltr_spaddl ?sumr_ge0 //.
by rewrite mxE mulrCA -expr2 mulr_gt0 // exprn_even_gt0 //= zi.
Qed.

Lemma diag_sq d (v : 'rV[R]_d) : diag_mx v *m (diag_mx v)^T = diag_mx (\row_i v 0 i ^+ 2).
Proof.
rewrite tr_diag_mx mul_diag_mx; apply/matrixP => i j; rewrite !mxE -mulrnAr.
by case: eqP => [->|_]; rewrite ?mulr0n ?mulr0 // !mulr1n expr2.
Qed.

Lemma cholesky_diag d (v : 'rV[R]_d) : (forall i, 0 < v 0 i) -> cholesky (diag_mx (\row_i v 0 i ^+ 2)) = diag_mx v.
Proof.
move=> v0; symmetry; apply/cholesky_iff; first by apply: diag_spd => i; rewrite mxE exprn_gt0.
split; first by apply/is_trig_mxP => i j lt; rewrite mxE; case: eqP lt => [->|_]; rewrite ?ltnn ?mulr0n.
split; first by move=> i; rewrite mxE eqxx mulr1n.
exact: diag_sq.
Qed.

Lemma lnX (a : R) n : 0 < a -> ln (a ^+ n) = n%:R * ln a.
Proof.
move=> a0; elim: n => [|n IH]; first by rewrite expr0 mul0r; exact: ln_1.
rewrite exprS [LHS]ln_mult; [|by apply/RltE|by apply/RltE; rewrite exprn_gt0].
by rewrite IH [in RHS]mulrSr mulrDl mul1r addrC.
Qed.

Lemma cholesky_scalar d (s : R) : 0 < s -> cholesky ((s ^+ 2)%:M : 'M[R]_d) = s%:M.
Proof.
move=> s0; rewrite -[s%:M]diag_const_mx -[in RHS]cholesky_diag ?mxE //; last by move=> i; rewrite mxE.
by rewrite -diag_const_mx; congr (cholesky (diag_mx _)); apply/rowP => i; rewrite !mxE.
Qed.

Lemma draw_scalar d (s : R) (m e : 'cV[R]_d) : 0 < s ->
  gauss_logpdf (s ^+ 2)%:M (m + s *: e) m = std_logpdf e - d%:R * ln s.
Proof.
move=> s0; have h : spd ((s ^+ 2)%:M : 'M[R]_d) by apply: spd_scalar; rewrite exprn_gt0.
rewrite -mul_scalar_mx -(cholesky_scalar d s0) draw_density // det_scalar !lnX ?exprn_gt0 //.
by move: (ln s) (std_logpdf e) d%:R => *; toR; field.
Qed.

Lemma draw_unit d (m e : 'cV[R]_d) : gauss_logpdf 1%:M (m + e) m = std_logpdf e.
Proof. by have := @draw_scalar d 1 m e ltr01; rewrite scale1r expr1n => ->; rewrite [ln 1]ln_1 mulr0 subr0. Qed.

Lemma draw_vol d (x e : 'cV[R]_d) :
  vol_logpdf x (\col_i (exp (1 / 2%:R * x i 0) * e i 0)) = std_logpdf e - (\sum_i x i 0) / 2%:R.
Proof.
pose v : 'rV[R]_d := \row_i exp (1 / 2%:R * x i 0).
have v0 i : 0 < v 0 i by rewrite mxE; apply/RltE; exact: exp_pos.
have D : diag_mx (\row_i exp (x i 0)) = diag_mx (\row_i v 0 i ^+ 2).
  by congr diag_mx; apply/rowP => i; rewrite !mxE exp_half_sq.
have -> : (\col_i (exp (1 / 2%:R * x i 0) * e i 0)) = 0 + cholesky (diag_mx (\row_i v 0 i ^+ 2)) *m e.
  by rewrite add0r cholesky_diag // mul_diag_mx; apply/colP => i; rewrite !mxE.
rewrite /vol_logpdf D draw_density; last by apply: diag_spd => i; rewrite mxE exprn_gt0.
rewrite -D det_diag ln_prod; last by move=> i; rewrite mxE; apply/RltE; exact: exp_pos.
by congr (_ - _ / _); apply: eq_bigr => i _; rewrite mxE; exact: ln_exp.
Qed.

(** ** The simulated data *)
Section LgData.
Variables (d T : nat) (sigma : R) (eps_0 : 'cV[R]_d) (eps_x eps_y : nat -> 'cV[R]_d).
Fixpoint lg_state (t : nat) : 'cV[R]_d := if t is t'.+1 then lg_state t' + sigma *: eps_x t' else sigma *: eps_0.
Lemma lg_dataE : lg_get_data sigma eps_0 (mkseq eps_x T) (mkseq eps_y T) = [seq (lg_state t, lg_state t + eps_y t) | t <- iota 0 T].
Proof.
have H n t : lg_data_scan sigma (lg_state t) [seq (eps_x i, eps_y i) | i <- iota t n] = [seq (lg_state i, lg_state i + eps_y i) | i <- iota t n].
  by elim: n t => //= n IH t; rewrite -IH.
by rewrite /lg_get_data /mkseq zip_iota -H.
Qed.
End LgData.

Lemma lg_data_law d T (sigma : R) (eps_0 : 'cV[R]_d) (eps_x eps_y : nat -> 'cV[R]_d) : 0 < sigma ->
  let data := lg_get_data sigma eps_0 (mkseq eps_x T.+1) (mkseq eps_y T.+1) in
  let x t := (nth (0, 0) data t).1 in
  let y t := (nth (0, 0) data t).2 in
  size data = T.+1 /\ lgssm_joint T sigma y x
    = std_logpdf eps_0 + \sum_(t < T) std_logpdf (eps_x t) + \sum_(t < T.+1) std_logpdf (eps_y t) - T.+1%:R * (d%:R * ln sigma).
Proof.
move=> s0 data x y; rewrite /data lg_dataE size_map size_iota; split=> //.
have nE t : (t < T.+1)%N -> x t = lg_state sigma eps_0 eps_x t /\ y t = lg_state sigma eps_0 eps_x t + eps_y t.
  by move=> lt; rewrite /x /y /data lg_dataE (nth_map 0%N) ?size_iota // nth_iota.
rewrite lg_jointE; have -> : gauss_logpdf (sigma ^+ 2)%:M (x 0%N) 0 = std_logpdf eps_0 - d%:R * ln sigma.
  by have [-> _] := nE 0%N isT; rewrite -(draw_scalar 0) // add0r.
under eq_bigr => t _.
  have [-> _] := nE t.+1 (ltn_ord t); have [-> _] := nE t (ltnW (ltn_ord t)); rewrite /= draw_scalar //; over.
under [X in _ + X = _]eq_bigr => t _.
  have [-> ->] := nE t (ltn_ord t); rewrite draw_unit; over.
rewrite big_split /= sumrN sumr_const card_ord -[(d%:R * ln sigma) *+ T]mulr_natl.
rewrite [X in _ = _ - X * _]mulrSr; move: (\sum_(t < T) _) (\sum_(t < T.+1) _) (std_logpdf _) (T%:R : R) (d%:R * _); clear.
by move=> *; toR; ring.
Qed.

Section SvData.
Variables (d : nat) (m0 : 'cV[R]_d) (P0 F Q : 'M[R]_d) (b : 'cV[R]_d) (T : nat) (eps_0 : 'cV[R]_d) (eps_x eps_y : nat -> 'cV[R]_d).
Fixpoint sv_state (t : nat) : 'cV[R]_d := if t is t'.+1 then F *m sv_state t' + b + cholesky Q *m eps_x t' else m0 + cholesky P0 *m eps_0.
Definition sv_obs (t : nat) : 'cV[R]_d := \col_i (exp (1 / 2%:R * sv_state t i 0) * eps_y t i 0).
Lemma sv_dataE : sv_get_data m0 P0 F Q b eps_0 (mkseq (fun t => (eps_x t, eps_y t)) T) = [seq (sv_state t, sv_obs t) | t <- iota 0 T].
Proof.
have H n t : sv_data_scan F Q b (sv_state t) [seq (eps_x i, eps_y i) | i <- iota t n] = [seq (sv_state i, sv_obs i) | i <- iota t n].
  elim: n t => //= n IH t; rewrite -IH; congr (_ :: _); congr (_, _).
  by apply/colP => i; rewrite !mxE.
by rewrite /sv_get_data /mkseq -H.
Qed.
End SvData.

Lemma sv_data_law d T (m0 : 'cV[R]_d) (P0 F Q : 'M[R]_d) (b eps_0 : 'cV[R]_d) (eps_x eps_y : nat -> 'cV[R]_d) : spd P0 -> spd Q ->
  let data := sv_get_data m0 P0 F Q b eps_0 (mkseq (fun t => (eps_x t, eps_y t)) T.+1) in
  let x t := (nth (0, 0) data t).1 in
  let y t := (nth (0, 0) data t).2 in
  size data = T.+1 /\ vol_joint T m0 P0 F Q b y x
    = std_logpdf eps_0 + \sum_(t < T) std_logpdf (eps_x t) + \sum_(t < T.+1) std_logpdf (eps_y t)
      - (ln (\det P0) / 2%:R + T%:R * (ln (\det Q) / 2%:R) + \sum_(t < T.+1) (\sum_i x t i 0) / 2%:R).
Proof.
move=> hP hQ data x y; rewrite /data sv_dataE size_map size_iota; split=> //.
have nE t : (t < T.+1)%N -> x t = sv_state m0 P0 F Q b eps_0 eps_x t /\ y t = sv_obs m0 P0 F Q b eps_0 eps_x eps_y t.
  by move=> lt; rewrite /x /y /data sv_dataE (nth_map 0%N) ?size_iota // nth_iota.
have -> : vol_joint T m0 P0 F Q b y x = gauss_logpdf P0 (x 0%N) m0 + \sum_(t < T) gauss_logpdf Q (x t.+1) (F *m x t + b)
   + \sum_(t < T.+1) vol_logpdf (x t) (y t) by [].
have -> : gauss_logpdf P0 (x 0%N) m0 = std_logpdf eps_0 - ln (\det P0) / 2%:R.
  by have [-> _] := nE 0%N isT; rewrite /= draw_density.
under eq_bigr => t _.
  have [-> _] := nE t.+1 (ltn_ord t); have [-> _] := nE t (ltnW (ltn_ord t)); rewrite /= draw_density //; over.
have -> : \sum_(t < T.+1) vol_logpdf (x t) (y t) = \sum_(t < T.+1) std_logpdf (eps_y t) - \sum_(t < T.+1) (\sum_i x t i 0) / 2%:R.
  rewrite -sumrB; apply: eq_bigr => t _; have [-> ->] := nE t (ltn_ord t); exact: draw_vol.
rewrite big_split /= sumrN sumr_const card_ord -[_ *+ T]mulr_natl.
move: (\sum_(t < T) _) (\sum_(t < T.+1) std_logpdf _) (\sum_(t < T.+1) (\sum_i x t i 0) / _) (std_logpdf _) (T%:R * _) (ln _ / _); clear.
by move=> *; toR; ring.
Qed.

(** ** The initial trajectories of the linear Gaussian experiment *)
Lemma lg_init_law d T (sigma : R) (y : nat -> 'cV[R]_d) : 0 < sigma ->
  let draw eps t := nth 0 (lg_init_xs sigma T.+1 (mkseq y T.+1) (mkseq eps T.+1)) t in
  (exists c, forall eps, lgssm_joint T sigma y (draw eps) = c + \sum_(t < T.+1) std_logpdf (eps t))
  /\ forall x : nat -> 'cV[R]_d, exists eps, forall t, (t <= T)%N -> draw eps t = x t.
Proof.
move=> s0 draw; have hS := s2_spd s0 d.
pose fs := [seq Dyn (1%:M : 'M[R]_d) (sigma ^+ 2)%:M (0 : 'cV[R]_d) | t <- iota 0 T].
pose os := [seq Obs (1%:M : 'M[R]_d) (1%:M : 'M[R]_d) (0 : 'cV[R]_d) (y t) | t <- iota 0 T.+1].
have dE eps t : draw eps t = nth 0 (let: (filt, _) := filtering os 0 (sigma ^+ 2)%:M fs in sampling (mkseq eps T.+1) filt fs) t.
  rewrite /draw /lg_init_xs scalemx1 /mkseq -map_comp.
  by have -> : fs = nseq T (Dyn 1%:M (sigma ^+ 2)%:M 0) by rewrite /fs -[in RHS](size_iota 0 T); elim: (iota 0 T) => //= ? ? ->.
have := @posterior_exact d d T 0 (sigma ^+ 2)%:M (fun=> 1%:M) (fun=> (sigma ^+ 2)%:M) (fun=> 0) (fun=> 1%:M) (fun=> 1%:M) (fun=> 0) y 0
  hS (fun=> hS) (fun=> spd_scalar _ ltr01) isT.
rewrite subn0 -/fs -/os; cbv zeta; case: (filtering _ _ _ _) dE => filt ell dE [A [C [a [_ hC J sE _]]]].
have jE x : lgssm_joint T sigma y x
   = ell + gauss_logpdf (C T) (x T) (a T) + \sum_(t < T) gauss_logpdf (C t) (x t) (A t *m x t.+1 + a t).
  rewrite -J /lgssm_joint /obs_logpdf big_mkord; congr (_ + _).
  by apply: eq_bigr => t _; rewrite mul1mx addr0.
have dT eps : draw eps T = a T + cholesky (C T) *m eps 0%N by rewrite dE; have [] := sE eps.
have dt eps t : (t < T)%N -> draw eps t = A t *m draw eps t.+1 + a t + cholesky (C t) *m eps t.+1.
  by move=> lt; rewrite !dE; have [_ _ ->] := sE eps.
split.
  exists (ell - ln (\det (C T)) / 2%:R - \sum_(t < T) ln (\det (C t)) / 2%:R) => eps; rewrite jE dT draw_density; last exact: hC.
  have -> : \sum_(t < T) gauss_logpdf (C t) (draw eps t) (A t *m draw eps t.+1 + a t)
     = \sum_(t < T) std_logpdf (eps t.+1) - \sum_(t < T) ln (\det (C t)) / 2%:R.
    by rewrite -sumrB; apply: eq_bigr => t _; rewrite dt // draw_density //; apply: hC; exact: ltnW.
  rewrite big_ord_recl /=; move: (\sum_(t < T) ln (\det (C t)) / 2%:R) (\sum_(t < T) _) (std_logpdf _) (_ / _); clear.
  by move=> *; toR; ring.
move=> x; exists (fun t => if t is t'.+1 then invmx (cholesky (C t')) *m (x t' - (A t' *m x t'.+1 + a t')) else invmx (cholesky (C T)) *m (x T - a T)).
set eps := fun t : nat => _.
have Lu t : (t <= T)%N -> cholesky (C t) \in unitmx.
  by move=> /hC /cholesky_ok [tr dg _]; apply: trig_unit => // i; rewrite gt_eqF.
have H n t : (t + n = T)%N -> draw eps t = x t.
  elim: n t => [|n IH] t.
    by rewrite addn0 => ->; rewrite dT /= mulKVmx ?Lu // addrC subrK.
  rewrite -addSnnS => e; have lt : (t < T)%N by rewrite -e leq_addr.
  by rewrite dt // (IH t.+1) //= mulKVmx ?Lu // 1?ltnW // addrC subrK.
by move=> t le; apply: (H (T - t)%N); rewrite subnKC.
Qed.

(** ** The inverse factors returned by sv get_data *)
Section Energy.
Variable d : nat.
Definition sq_diag (P : 'M[R]_d) : 'M[R]_d := diag_mx (\row_i cholesky P i i ^+ 2).
Lemma sq_diag_spd (P : 'M[R]_d) : spd P -> spd (sq_diag P).
Proof. by case/cholesky_ok => _ dg _; apply: diag_spd => i; rewrite mxE exprn_gt0. Qed.

Lemma from_upperE (L : 'M[R]_d) : is_trig_mx L -> from_upper L = diag_mx (\row_i L i i).
Proof.
move/is_trig_mxP => tr; apply/matrixP => i j; rewrite !mxE; case: eqP => [->|ne]; first by rewrite leqnn mulr1n.
by rewrite mulr0n; case: ltngtP => lt; [apply: tr | apply: tr | case: ne; apply: val_inj].
Qed.

Lemma sv_data_inv_cholE (P : 'M[R]_d) : spd P -> sv_data_inv_chol P = inv_chol (sq_diag P).
Proof.
move=> hP; have [tr dg _] := cholesky_ok hP.
have cE : cholesky (sq_diag P) = diag_mx (\row_i cholesky P i i).
  rewrite -cholesky_diag; last by move=> i; rewrite mxE.
  by congr (cholesky (diag_mx _)); apply/rowP => i; rewrite !mxE.
rewrite /sv_data_inv_chol /solve_pos from_upperE // mulmx1 inv_cholE cE trilE //.
Qed.

Lemma sq_diag_iff (P : 'M[R]_d) : spd P -> sq_diag P = P <-> diagonal P.
Proof.
move=> hP; split=> [<- i j ne | D]; first by rewrite mxE (negbTE ne) mulr0n.
have diag_gt0 i : 0 < P i i.
  have [_ dg fac] := cholesky_ok hP; rewrite -fac mxE (bigD1 i) //= ltr_spaddl ?mxE ?mulr_gt0 //.
  by apply: sumr_ge0 => k _; rewrite mxE -expr2 sqr_ge0.
have D' : P = diag_mx (\row_i sqrt (P i i) ^+ 2).
  apply/matrixP => i j; rewrite !mxE; case: eqP => [<-|/eqP ne]; last by rewrite D.
  by rewrite mulr1n expr2 [RHS]sqrt_sqrt //; move: (ltW (diag_gt0 i)); rewrite RleE.
have v0 i : 0 < (\row_i sqrt (P i i) : 'rV[R]_d) 0 i.
  by rewrite mxE RltE; apply: sqrt_lt_R0; apply/RltE.
have D'' : P = diag_mx (\row_i (\row_i sqrt (P i i) : 'rV[R]_d) 0 i ^+ 2).
  by rewrite {1}D'; congr diag_mx; apply/rowP => i; rewrite !mxE.
rewrite /sq_diag [in RHS]D''; congr diag_mx; apply/rowP => i; rewrite !mxE.
by rewrite {1}D'' cholesky_diag // !mxE eqxx mulr1n.
Qed.

(** The returned matrix is the inverse of the factor exactly for diagonal covariances. *)
Lemma sv_inv_chol_iff (P : 'M[R]_d) : spd P -> sv_data_inv_chol P *m cholesky P = 1%:M <-> diagonal P.
Proof.
move=> hP; have [tr dg fac] := cholesky_ok hP; have [tr' dg' fac'] := cholesky_ok (sq_diag_spd hP).
have Lu' : cholesky (sq_diag P) \in unitmx by apply: trig_unit => // i; rewrite gt_eqF.
rewrite -(sq_diag_iff hP) sv_data_inv_cholE // inv_cholE trilE //; split=> [e|->]; last by rewrite mulVmx // trig_unit // => i; rewrite gt_eqF.
have LE : cholesky (sq_diag P) = cholesky P by rewrite -[RHS](mulKVmx Lu') e mulmx1.
by rewrite -fac' LE fac.
Qed.

Variables (T : nat) (m0 : 'cV[R]_d) (P0 F Q : 'M[R]_d) (b : 'cV[R]_d) (y : nat -> 'cV[R]_d).
Hypotheses (hP : spd P0) (hQ : spd Q).
Local Notation energy := (fun x => sv_energy m0 P0 F Q b (mkseq x T.+1) (mkseq y T.+1)).

Lemma sv_energyE : same_density energy (mala_joint T m0 (sq_diag P0) F (sq_diag Q) b y).
Proof.
apply: same_trans (sv_mala_actual T m0 F b y (sq_diag_spd hP) (sq_diag_spd hQ)); exists 0 => x.
by rewrite add0r /sv_energy !sv_data_inv_cholE.
Qed.

Lemma sv_energy_iff : (0 < T)%N ->
  same_density energy (fun x => sv_full_log_pdf m0 P0 F Q b (mkseq y T.+1) (mkseq x T.+1)) <-> diagonal P0 /\ diagonal Q.
Proof.
move=> T0; rewrite -(sq_diag_iff hP) -(sq_diag_iff hQ); split; last first.
  case=> e e'; apply: same_trans sv_energyE _; rewrite e e'; apply: same_sym; exact: sv_mala_actual.
move=> H; have {H} H := same_trans (same_sym sv_energyE) (same_trans H (sv_mala_actual T m0 F b y hP hQ)).
have [eQ _] := @same_transition _ T _ _ (sv_pred F b) (sv_pred F b) (gauss_logpdf (sq_diag P0) ^~ m0) (gauss_logpdf P0 ^~ m0) _ (sq_diag_spd hQ) hQ T0 H.
split=> //; case: H => c; rewrite eQ => H.
have [] := @gauss_unique _ (sq_diag P0) P0 m0 m0 c (sq_diag_spd hP) hP _; last by [].
move=> x; pose X t := if t == 0%N then x else 0; have := H X; rewrite /mala_joint.
rewrite -[X 0%N]/x; move: (\sum_(t < T) _) (\sum_(t < T.+1) _) (gauss_logpdf _ _ _) (gauss_logpdf _ _ _); clear.
by move=> *; toR; lra.
Qed.

Lemma sv_energy_joint : (0 < T)%N -> same_density energy (vol_joint T m0 P0 F Q b y) -> diagonal Q.
Proof.
move=> T0 H; apply/(sq_diag_iff hQ).
by have [] := @same_transition _ T _ _ (sv_pred F b) (fun z => F *m z + b) (gauss_logpdf (sq_diag P0) ^~ m0) (gauss_logpdf P0 ^~ m0) _ (sq_diag_spd hQ) hQ T0
  (same_trans (same_sym sv_energyE) H).
Qed.
End Energy.

Lemma equi_not_diag d tau rho : (1 < d)%N -> 0 < tau -> rho != 0 -> ~ diagonal (equicorrelated d tau rho).
Proof.
move=> d1 t0 r0 /(_ (Ordinal (ltnW d1)) (Ordinal d1) isT); rewrite !mxE /= => /eqP.
by rewrite mulf_eq0 (negbTE r0) orbF gt_eqF.
Qed.

Lemma sv_energy_bad d T phi tau rho (y : nat -> 'cV[R]_d) : (1 < d)%N -> (0 < T)%N ->
  0 < tau -> phi ^+ 2 < 1 -> rho != 0 -> rho < 1 -> 0 < 1 + (d%:R - 1) * rho ->
  let: (m0, P0, F, Q, b) := get_dynamics d 0 phi tau rho in
  let energy := fun x => sv_energy m0 P0 F Q b (mkseq x T.+1) (mkseq y T.+1) in
  ~ same_density energy (fun x => sv_full_log_pdf m0 P0 F Q b (mkseq y T.+1) (mkseq x T.+1))
  /\ ~ same_density energy (vol_joint T m0 P0 F Q b y).
Proof.
move=> d1 T0 t0 p1 r0 r1 rd; rewrite get_dynamicsE; have [hP hQ] := equi_dyn_spd t0 p1 r1 rd; cbv zeta.
have nd := equi_not_diag d1 t0 r0.
split; first by move/(sv_energy_iff _ _ _ _ hP hQ T0) => -[].
by move/(sv_energy_joint hP hQ T0).
Qed.

(** ** The preconditioned proposals *)
Lemma lg_proposal_density d (sigma ell : R) (U : 'M[R]_d) (G : 'rV[R]_d) :
  U *m U^T = 1%:M -> (forall i, 0 < G 0 i) -> 0 < ell -> lg_Q d sigma = U *m diag_mx G *m U^T ->
  (forall i, stable_zero <= G 0 i * (ell / 2%:R) / (G 0 i + ell / 2%:R)) ->
  let p := get_proposal_params ell U G U^T in
  exists c, forall u m x, prop_logpdf p u m x = gauss_kernel (p_chol p *m (p_chol p)^T) x (prop_mean p u m) + c.
Proof.
move=> UU G0 l0 e cl p; apply/(density_iff UU G0 l0 cl); rewrite /Qm -e lg_QE.
have <- : const_mx (sigma ^+ 2) = G by apply: (conj_inj UU); rewrite -conj_scalar // -e lg_QE.
by rewrite diag_const_mx.
Qed.

Lemma sv_proposal_density d (tau rho ell : R) (U : 'M[R]_d) (G : 'rV[R]_d) :
  (1 < d)%N -> 0 < tau -> rho != 0 ->
  U *m U^T = 1%:M -> (forall i, 0 < G 0 i) -> 0 < ell -> equicorrelated d tau rho = U *m diag_mx G *m U^T ->
  (forall i, stable_zero <= G 0 i * (ell / 2%:R) / (G 0 i + ell / 2%:R)) ->
  let p := get_proposal_params ell U G U^T in
  ~ exists c, forall u m x, prop_logpdf p u m x = gauss_kernel (p_chol p *m (p_chol p)^T) x (prop_mean p u m) + c.
Proof.
move=> d1 t0 r0 UU G0 l0 e cl p /(density_iff UU G0 l0 cl); rewrite /Qm -e => e'.
by apply: (equi_not_diag d1 t0 r0) => i j ne; rewrite e' mxE (negbTE ne) mulr0n.
Qed.

(** ** The bootstrap proposals *)
Lemma lg_bootstrap d (sigma : R) (x e : 'cV[R]_d) : 0 < sigma ->
  lg_M0_logpdf sigma (lg_M0_rvs sigma e) = std_logpdf e - d%:R * ln sigma
  /\ lg_Mt_logpdf sigma x (lg_Mt_rvs sigma x e) = std_logpdf e - d%:R * ln sigma.
Proof.
move=> s0; rewrite /lg_M0_logpdf /lg_Mt_logpdf norm_sum0 // norm_sum1 // /lg_Mt_rvs draw_scalar //.
by split=> //; rewrite -(draw_scalar 0) // add0r.
Qed.

Lemma sv_bootstrap d (m0 : 'cV[R]_d) (P0 F Q : 'M[R]_d) (b x e : 'cV[R]_d) : spd P0 -> spd Q ->
  sv_M0_logpdf m0 P0 (sv_M0_rvs m0 P0 e) = gauss_kernel 1%:M e 0
  /\ sv_Mt_logpdf F Q b x (sv_Mt_rvs F Q b x e) = gauss_kernel 1%:M e 0.
Proof.
move=> hP hQ; rewrite /sv_M0_logpdf /sv_Mt_logpdf !mvnE // /sv_Mt_rvs [_ + _ + b]addrAC /sv_M0_rvs !draw_density //.
have -> : std_logpdf e = gauss_kernel 1%:M e 0 - d%:R * ln (2%:R * PI) / 2%:R.
  by rewrite /std_logpdf /gauss_logpdf det1 [ln 1]ln_1 mul0r subr0.
by rewrite /lcst; move: (gauss_kernel _ _ _) (_ * ln _ / _) (ln _ / _) (ln _ / _); clear; split; toR; lra.
Qed.

(** ** The twisted kernels *)
Lemma scalar_rev_ok d (a : R) (P0 : 'M[R]_d) (Q : nat -> 'M[R]_d) t :
  rev_ok (a%:M : 'M[R]_d) (cov_at P0 (fun=> a%:M) Q t) 0 (mean_at 0 (fun=> a%:M) (fun=> 0) t).
Proof.
have -> : mean_at 0 (fun=> a%:M) (fun=> 0) t = 0 :> 'cV[R]_d by elim: t => //= t ->; rewrite mulmx0 addr0.
by split; rewrite ?tr_scalar_mx ?scalar_mxC ?mulmx0 ?subrr ?addr0.
Qed.

Section TwistedTargets.
Variables (d T : nat) (a : R) (P0 Q : 'M[R]_d) (u : nat -> 'cV[R]_d) (delta ell : nat -> R).
Hypotheses (hP : spd P0) (hQ : spd Q) (l0 : forall t, 0 < ell t).
Lemma scalar_twisted rv gv :
  let: (final, revs) := get_reversed_dynamics (0, P0) [seq Dyn a%:M Q 0 | t <- iota 0 T] in
  let: (p0, ps) := twisted_params final revs (mkseq u T.+1) (mkseq ell T.+1) in
  exists c, forall x : nat -> 'cV[R]_d,
    tGamma_0 p0 (u 0%N) (delta 0%N) (ell 0%N) (rv x 0%N) (gv x 0%N) (x 0%N)
    + \sum_(t < T) tGamma_t (nth p0 ps t) (u t.+1) (delta t.+1) (ell t.+1) (rv x t.+1) (gv x t.+1) (x t) (x t.+1)
    = c + chain_logpdf T 0 P0 (fun=> a%:M) (fun=> Q) (fun=> 0) x
      + \sum_(t < T.+1) (rv x t + gauss_logpdf (ell t / 2%:R)%:M (u t) (x t + (delta t / 2%:R) *: gv x t)).
Proof.
by apply: (@twisted_target_exact d T 0 P0 (fun=> a%:M) (fun=> Q) (fun=> 0) u delta ell rv gv hP (fun=> hQ) l0) => t _; exact: scalar_rev_ok.
Qed.
End TwistedTargets.

Lemma lg_twisted_target d T (sigma : R) (y u : nat -> 'cV[R]_d) (delta ell : nat -> R) gv : 0 < sigma -> (forall t, 0 < ell t) ->
  let: (final, revs) := get_reversed_dynamics (lg_m0 d, lg_P0 d sigma) [seq Dyn (lg_F d) (lg_Q d sigma) (lg_b d) | t <- iota 0 T] in
  let: (p0, ps) := twisted_params final revs (mkseq u T.+1) (mkseq ell T.+1) in
  same_density (fun x : nat -> 'cV[R]_d =>
      tGamma_0 p0 (u 0%N) (delta 0%N) (ell 0%N) (lg_r0 (y 0%N) (x 0%N)) (gv x 0%N) (x 0%N)
      + \sum_(t < T) tGamma_t (nth p0 ps t) (u t.+1) (delta t.+1) (ell t.+1) (lg_rt (x t.+1) (y t.+1)) (gv x t.+1) (x t) (x t.+1))
    (fun x => lgssm_joint T sigma y x + \sum_(t < T.+1) gauss_logpdf (ell t / 2%:R)%:M (u t) (x t + (delta t / 2%:R) *: gv x t)).
Proof.
move=> s0 l0; have hS := s2_spd s0 d; rewrite lg_P0E lg_QE.
have := @scalar_twisted d T 1 _ _ u delta ell hS hS l0 (fun x t => lg_log_potential (x t) (y t)) gv.
rewrite /lg_m0 /lg_F /lg_b; case: get_reversed_dynamics => final revs; case: twisted_params => p0 ps [c H].
exists c => x; rewrite H big_split /= /lgssm_joint; under eq_bigr do rewrite lg_potentialE.
by rewrite !addrA.
Qed.

Lemma sv_twisted_target d T (phi tau rho : R) (y u : nat -> 'cV[R]_d) (delta ell : nat -> R) gv :
  0 < tau -> phi ^+ 2 < 1 -> rho < 1 -> 0 < 1 + (d%:R - 1) * rho -> (forall t, 0 < ell t) ->
  let: (m0, P0, F, Q, b) := get_dynamics d 0 phi tau rho in
  let: (final, revs) := get_reversed_dynamics (m0, P0) [seq Dyn F Q b | t <- iota 0 T] in
  let: (p0, ps) := twisted_params final revs (mkseq u T.+1) (mkseq ell T.+1) in
  same_density (fun x : nat -> 'cV[R]_d =>
      tGamma_0 p0 (u 0%N) (delta 0%N) (ell 0%N) (sv_r0 (y 0%N) (x 0%N)) (gv x 0%N) (x 0%N)
      + \sum_(t < T) tGamma_t (nth p0 ps t) (u t.+1) (delta t.+1) (ell t.+1) (sv_rt (x t.+1) (y t.+1)) (gv x t.+1) (x t) (x t.+1))
    (fun x => vol_joint T m0 P0 F Q b y x + \sum_(t < T.+1) gauss_logpdf (ell t / 2%:R)%:M (u t) (x t + (delta t / 2%:R) *: gv x t)).
Proof.
move=> t0 p1 r1 rd l0; rewrite get_dynamicsE; have [hP hQ] := equi_dyn_spd t0 p1 r1 rd.
have c0 : const_mx 0 = 0 :> 'cV[R]_d by apply/colP => i; rewrite !mxE.
rewrite mulr0 c0.
have := @scalar_twisted d T phi _ _ u delta ell hP hQ l0 (fun x t => sv_log_potential (x t) (y t)) gv.
case: get_reversed_dynamics => final revs; case: twisted_params => p0 ps [c H].
exists c => x; rewrite H big_split /= /vol_joint; under eq_bigr do rewrite sv_potentialE.
by rewrite !addrA.
Qed.

Lemma sv_parameters : [/\ 0 < 1 / 10%:R :> R, (9%:R / 10%:R) ^+ 2 < 1 :> R, 9%:R / 10%:R != 0 :> R, 1 / 4%:R < 1 :> R
  & 0 < 1 + (30%:R - 1) * (1 / 4%:R) :> R].
Proof. by rewrite expr2; split; first [apply/eqP; toR; lra | toR; lra]. Qed.

(** A factorisation of a correlated covariance. *)
Lemma equi_factor : exists (U : 'M[R]_2) (G : 'rV[R]_2), [/\ U *m U^T = 1%:M, forall i, 0 < G 0 i,
  equicorrelated 2 1 (1 / 2%:R) = U *m diag_mx G *m U^T & forall i, stable_zero <= G 0 i * (2%:R / 2%:R) / (G 0 i + 2%:R / 2%:R)].
Proof.
pose c : R := sqrt (1 / 2%:R).
have cc : c * c = 1 / 2%:R by rewrite /c [LHS]sqrt_sqrt //; apply/RleE; rewrite divr_ge0 ?ler01 ?ler0n.
exists (\matrix_(i, j) (if (i == 1) && (j == 1) then - c else c)), (\row_i (if i == 0 then 3%:R / 2%:R else 1 / 2%:R)); split.
- apply/matrixP => i j; rewrite !mxE !big_ord_recl big_ord0 !mxE /=.
  by case: i => -[|[|//]] ?; case: j => -[|[|//]] ? /=; rewrite ?mulrN ?mulNr ?opprK ?cc; toR; field.
- by move=> i; rewrite mxE; case: ifP => _; toR; lra.
- rewrite mul_mx_diag; apply/matrixP => i j; rewrite !mxE !big_ord_recl big_ord0 !mxE /=.
  by case: i => -[|[|//]] ?; case: j => -[|[|//]] ? /=; rewrite ?mulrN ?mulNr ?mulrN ?opprK ![c * _ * c]mulrAC ?cc; toR; field.
move=> i; have h : 1 / IZR 1000000000000000 <= 1 / 3%:R :> R by toR; lra.
apply: le_trans h _; rewrite mxE; case: ifP => _.
  by rewrite [X in _ <= X](_ : _ = 3%:R / 5%:R); toR; [lra | field].
by rewrite [X in _ <= X](_ : _ = 1 / 3%:R); toR; [lra | field].
Qed.
