(** * TwistedProofs: the reversed dynamics and the proposals of t_atp_csmc_f.py (C39, C45). *)
From Coq Require Import Reals Lra.
From mathcomp Require Import all_ssreflect all_algebra.
From Verif Require Import RInst Gauss GaussSpec GaussProofs MarginalProofs MarginalFinal ProposalProofs.
From Verif Require Import Kalman KalmanSpec CholProofs KalmanProofs KalmanPaths Twisted.

Set Implicit Arguments.
Unset Strict Implicit.
Unset Printing Implicit Defensive.
Import GRing.Theory Num.Theory Order.TTheory.
Local Open Scope ring_scope.

(** Two Gaussian densities that differ by a factor are equal. *)
Lemma gauss_unique d (A B : 'M[R]_d) k l c : spd A -> spd B ->
  (forall x, gauss_logpdf A x k = gauss_logpdf B x l + c) -> A = B /\ k = l.
Proof.
move=> hA hB H; have [sA pA] := spd_inv hA; have [sB pB] := spd_inv hB.
have [cst H'] : exists e, forall x, quad (invmx A) x = quad (invmx B) (x + (k - l)) + e.
  exists (ln (\det B) - ln (\det A) - 2%:R * c) => x; have := H (x + k).
  rewrite /gauss_logpdf /gauss_kernel addrK -(addrA x).
  move: (quad _ _) (quad _ _) (ln (\det A)) (ln (\det B)) (d%:R * _ / _) => u v a b q.
  by toR; lra.
have e0 : cst = - quad (invmx B) (k - l).
  by have := H' 0; rewrite add0r quadE dotv0l; move: (quad _ _) => *; toR; lra.
have D x : quad (invmx A) x = quad (invmx B) x + 2%:R * dotv x (invmx B *m (k - l)).
  by rewrite H' e0 quadDv // addrK.
have D0 x : dotv x (invmx B *m (k - l)) = 0.
  have := D (- x); have := D x; rewrite !quadN dotvNl mulrN.
  by clear; move: (quad _ _) (quad _ _) (dotv _ _) => q1 q2 q3; toR => h1 h2; lra.
have kl : k = l.
  apply/eqP; rewrite -subr_eq0; apply/eqP; case: (altP (k - l =P 0)) => // ne.
  by have := pB _ ne; rewrite quadE D0 ltxx.
split=> //; rewrite -[A]invmxK -[B]invmxK; congr invmx; apply: sym_quad_inj => // z.
by rewrite D D0 mulr0 addr0.
Qed.

Section Step.
Variables (d : nat) (F Q P : 'M[R]_d) (b m : 'cV[R]_d).
Hypotheses (hP : spd P) (hQ : spd Q).
Local Notation S := (innov P Q F).

Lemma S_unit : S \in unitmx. Proof. by have [_ /positive_unit] := innov_spd F hP hQ. Qed.

Lemma get_gainE : get_gain F Q P = F *m P *m invmx S.
Proof.
have [sS _] := innov_spd F hP hQ; have [sP _] := hP.
by rewrite /get_gain [_ + Q]addrC trmx_mul trmx_mul trmxK sP (sym_inv sS).
Qed.

Lemma get_gain_iff : get_gain F Q P = gain P Q F <-> F *m P = P *m F^T.
Proof.
rewrite get_gainE /gain; split=> [e|-> //].
by rewrite -[F *m P](mulmxKV S_unit) e mulmxKV ?S_unit.
Qed.

Lemma half_innov : half_sum (F^T *m P *m F + Q) = Q + F^T *m P *m F.
Proof.
have [sP _] := hP; have [sQ _] := hQ; rewrite addrC half_sumE // /symmetric linearD /= !trmx_mul trmxK sP sQ.
by rewrite mulmxA.
Qed.

Lemma post_alt : post P Q F = P - gain P Q F *m F *m P.
Proof.
have [sP _] := hP.
by rewrite /post gainT //; congr (_ - _); rewrite !mulmxA mulmxK ?S_unit.
Qed.

(** The conditions of [reversed_step_iff] are needed even up to a factor. *)
Lemma reversed_step_only c :
  let: ((m', P'), Dyn K Sigma mu) := reversed_body (m, P) (Dyn F Q b) in
  spd P' -> spd Sigma -> (forall x x',
     gauss_logpdf P x m + gauss_logpdf Q x' (F *m x + b) = gauss_logpdf P' x' m' + gauss_logpdf Sigma x (K *m x' + mu) + c)
  -> [/\ F *m P = P *m F^T, F^T *m P *m F = F *m P *m F^T & F^T *m m - F^T *m b = F *m m + b].
Proof.
rewrite /reversed_body; pose f := Dyn F Q b.
have ex x x' := bw_exact (f := f) (mp := (m, P)) x x' hP hQ.
have sC : spd (post P Q F) by exact: post_spd.
move=> hP' hS H.
set K := get_gain F Q P in H hS; set Sigma := _ *: _ in hS H; set P' := _ *: _ in hP' H.
set mu := m - _ in H; set m' := _ - _ in H.
have {H} H x x' : gauss_logpdf P' x' m' + gauss_logpdf Sigma x (K *m x' + mu) + c =
   gauss_logpdf S x' (F *m m + b) + gauss_logpdf (post P Q F) x (gain P Q F *m x' + bwa f (m, P)).
  by rewrite -H; exact: ex.
have H1 x' : Sigma = post P Q F /\ K *m x' + mu = gain P Q F *m x' + bwa f (m, P).
  apply: (gauss_unique (c := gauss_logpdf S x' (F *m m + b) - gauss_logpdf P' x' m' - c)) => // x.
  have := H x x'; move: (gauss_logpdf _ _ _) (gauss_logpdf _ _ _) (gauss_logpdf _ _ _) (gauss_logpdf _ _ _).
  by clear; move=> *; toR; lra.
have eS := (H1 0).1.
have emu : mu = bwa f (m, P) by have [_] := H1 0; rewrite !mulmx0 !add0r.
have eK : K = gain P Q F.
  apply/matrixP => i j; have [_] := H1 (delta_mx j 0); rewrite emu => /addIr.
  by rewrite -!colE => /matrixP/(_ i 0); rewrite !mxE.
have [eP em] : P' = S /\ m' = F *m m + b.
  apply: (gauss_unique (c := - c)) => //; first exact: innov_spd.
  move=> x'; have := H 0 x'; rewrite eS eK emu.
  move: (gauss_logpdf _ _ _) (gauss_logpdf _ _ _) (gauss_logpdf _ _ _).
  by clear; move=> *; toR; lra.
split=> //; first by apply/get_gain_iff.
by move: eP; rewrite /P' -/(half_sum (F^T *m P *m F + Q)) half_innov => /addrI.
Qed.

Lemma reversed_step_iff :
  let: ((m', P'), Dyn K Sigma mu) := reversed_body (m, P) (Dyn F Q b) in
  (spd P' /\ spd Sigma /\ forall x x',
     gauss_logpdf P x m + gauss_logpdf Q x' (F *m x + b) = gauss_logpdf P' x' m' + gauss_logpdf Sigma x (K *m x' + mu))
  <-> [/\ F *m P = P *m F^T, F^T *m P *m F = F *m P *m F^T & F^T *m m - F^T *m b = F *m m + b].
Proof.
have := @reversed_step_only 0; rewrite /reversed_body; pose f := Dyn F Q b.
have ex x x' := bw_exact (f := f) (mp := (m, P)) x x' hP hQ.
have sC : spd (post P Q F) by exact: post_spd.
move=> only; split.
- by move=> [hP' [hS H]]; apply: only => // x x'; rewrite H addr0.
- move=> [e1 e2 e3].
  have eg : get_gain F Q P = gain P Q F by apply/get_gain_iff.
  rewrite -/(half_sum (F^T *m P *m F + Q)) half_innov e2 e3 eg -post_alt -/(half_sum (post P Q F)) half_sumE; last by case: sC.
  split; first exact: innov_spd.
  by split=> // x x'; exact: ex.
Qed.
End Step.

Section Chain.
Variables (d : nat) (m0 : 'cV[R]_d) (P0 : 'M[R]_d) (F Q : nat -> 'M[R]_d) (b : nat -> 'cV[R]_d).
Hypotheses (hP : spd P0) (hQ : forall t, spd (Q t)).
Local Notation mm := (mean_at m0 F b).
Local Notation PP := (cov_at P0 F Q).
Local Notation f t := (Dyn (F t) (Q t) (b t)).

Lemma cov_spd t : spd (PP t).
Proof. by elim: t => [|t IH] //=; exact: innov_spd. Qed.

Definition good_at t := [/\ F t *m PP t = PP t *m (F t)^T, (F t)^T *m PP t *m F t = F t *m PP t *m (F t)^T
  & (F t)^T *m mm t - (F t)^T *m b t = F t *m mm t + b t].
Definition exact_rev t := Dyn (bwA (f t) (mm t, PP t)) (bwC (f t) (mm t, PP t)) (bwa (f t) (mm t, PP t)).

Lemma reversed_bodyE t : good_at t -> reversed_body (mm t, PP t) (f t) = ((mm t.+1, PP t.+1), exact_rev t).
Proof.
move=> [e1 e2 e3]; have hPt := cov_spd t.
have eg : get_gain (F t) (Q t) (PP t) = gain (PP t) (Q t) (F t) by apply/get_gain_iff.
have sC : spd (post (PP t) (Q t) (F t)) by exact: post_spd.
rewrite /reversed_body -/(half_sum ((F t)^T *m PP t *m F t + Q t)) half_innov // e2 e3 eg -post_alt //.
by rewrite -/(half_sum (post (PP t) (Q t) (F t))) half_sumE //; case: sC.
Qed.

Lemma reversedE n s : (forall t, (t < s + n)%N -> good_at t) ->
  get_reversed_dynamics (mm s, PP s) [seq f t | t <- iota s n] = ((mm (s + n), PP (s + n)), [seq exact_rev t | t <- iota s n]).
Proof.
elim: n s => [|n IH] s H; first by rewrite /= addn0.
transitivity (let: (carry, r) := reversed_body (mm s, PP s) (f s) in
  let: (final, rs) := get_reversed_dynamics carry [seq f t | t <- iota s.+1 n] in (final, r :: rs)); first by [].
rewrite reversed_bodyE; last by apply: H; rewrite addnS ltnS leq_addr.
by rewrite IH => [|t lt]; [rewrite addSnnS|apply: H; rewrite -addSnnS].
Qed.

Lemma reverse_chain T x : chain_logpdf T m0 P0 F Q b x =
  reverse_logpdf T (mm T) (PP T) (fun t => dF (exact_rev t)) (fun t => dQ (exact_rev t)) (fun t => db (exact_rev t)) x.
Proof.
elim: T => [|T IH]; first by rewrite /chain_logpdf /reverse_logpdf !big_ord0.
move: IH; rewrite /chain_logpdf /reverse_logpdf !big_ord_recr /=.
have := bw_exact (f := f T) (mp := (mm T, PP T)) (x T) (x T.+1) (cov_spd T) (hQ T).
rewrite /= -/(innov (PP T) (Q T) (F T)).
move: (gauss_logpdf P0 _ _) (gauss_logpdf _ _ _) (gauss_logpdf _ _ _) (gauss_logpdf _ _ _) (gauss_logpdf _ _ _).
by move: (\sum_(t < T) _) (\sum_(t < T) _) => *; toR; lra.
Qed.
End Chain.

(** ** The proposals *)
Lemma mvn_inv_cholesky d (C : 'M[R]_d) x m : spd C ->
  mvn_logpdf x m 0 (Some (invmx (tril (cholesky C)))) false = gauss_kernel C x m.
Proof.
move=> hC; have [tr dg fac] := cholesky_ok hC.
have Lu : cholesky C \in unitmx by apply: trig_unit => // i; rewrite gt_eqF.
by rewrite trilE // /mvn_logpdf subr0 logpdf_inv_kernel // fac.
Qed.

Lemma make_proposalE d (mp : 'cV[R]_d * 'M[R]_d) (f : dyn d) : spd mp.2 -> spd (dQ f) ->
  make_proposal mp f = TProp (bwA f mp) (bwa f mp) (cholesky (bwC f mp)) (invmx (tril (cholesky (bwC f mp)))).
Proof.
case: mp f => m P [F Q b] /= hP hQ.
have [sP _] := hP; have [sS _] := innov_spd F hP hQ.
rewrite /make_proposal -/(innov P Q F).
have -> : (invmx (innov P Q F) *m (F *m P))^T = gain P Q F.
  by rewrite /gain !trmx_mul sP (sym_inv sS).
rewrite -/(post P Q F) -/(half_sum (post P Q F)) half_sumE //.
by case: (post_spd F hP hQ).
Qed.

Section Proposals.
Variables (d T : nat) (mT : 'cV[R]_d) (PT : 'M[R]_d) (K S : nat -> 'M[R]_d) (mu u : nat -> 'cV[R]_d) (ell : nat -> R).
Hypotheses (hP : spd PT) (hS : forall t, spd (S t)) (hl : forall t, 0 < ell t).
Local Notation revs := [seq Dyn (K t) (S t) (mu t) | t <- iota 0 T].
Local Notation Rc t := ((ell t / 2%:R)%:M : 'M[R]_d).

Lemma Rc_spd t : spd (Rc t).
Proof. by split; [exact: l_sym|exact: l_pos]. Qed.

Lemma aux_cov t : (sqrt (1 / 2%:R * ell t) ^+ 2) *: (1%:M : 'M[R]_d) = Rc t.
Proof.
have -> : sqrt (1 / 2%:R * ell t) ^+ 2 = 1 / 2%:R * ell t.
  by rewrite expr2; apply: sqrt_sqrt; apply/RleE; rewrite mulr_ge0 ?divr_ge0 ?ler01 ?ler0n //; exact: ltW.
by rewrite scalemx1 mul1r mulrC.
Qed.

Lemma rev_mkseq (A : Type) (g : nat -> A) n : rev [seq g t | t <- iota 0 n] = [seq g (n.-1 - t)%N | t <- iota 0 n].
Proof.
case: n => // n; apply: (@eq_from_nth _ (g 0%N)); first by rewrite size_rev !size_map.
move=> i; rewrite size_rev size_map size_iota => lt.
have l2 : (n - i < n.+1)%N by rewrite ltnS leq_subr.
by rewrite nth_rev ?size_map ?size_iota // subSS !(nth_map 0%N) ?size_iota // !nth_iota.
Qed.

Theorem twisted_exact :
  let: (p0, ps) := twisted_params (mT, PT) revs (mkseq u T.+1) (mkseq ell T.+1) in
  exists (A C : nat -> 'M[R]_d) (a : nat -> 'cV[R]_d) (c : R),
  [/\ size ps = T /\ (forall t, (t <= T)%N -> spd (C t)),
      forall x e, tM0_rvs p0 e = a 0%N + cholesky (C 0%N) *m e /\ tM0_logpdf p0 x = gauss_kernel (C 0%N) x (a 0%N),
      forall t, (t < T)%N -> forall xp x e, let p := nth p0 ps t in
        tMt_rvs p xp e = A t *m xp + a t.+1 + cholesky (C t.+1) *m e
        /\ tMt_logpdf p xp x = gauss_kernel (C t.+1) x (A t *m xp + a t.+1)
    & forall x, reverse_logpdf T mT PT K S mu x + \sum_(t < T.+1) gauss_logpdf (Rc t) (u t) (x t)
        = c + gauss_logpdf (C 0%N) (x 0%N) (a 0%N) + \sum_(t < T) gauss_logpdf (C t.+1) (x t.+1) (A t *m x t + a t.+1)].
Proof.
pose r t := (T.-1 - t)%N; pose r' t := (T - t)%N.
have := @filtering_exact d d T mT PT (K \o r) (S \o r) (mu \o r) (fun=> 1%:M) (fun t => Rc (r' t)) (fun=> 0) (u \o r') hP
  (fun t => hS _) (fun t => Rc_spd _) 0 isT.
rewrite /twisted_params.
have -> : rev [seq Obs (1%:M : 'M[R]_d) ((sqrt (1 / 2%:R * ue.2) ^+ 2) *: 1%:M) 0 ue.1 | ue <- zip (mkseq u T.+1) (mkseq ell T.+1)]
  = [seq Obs (1%:M : 'M[R]_d) (Rc (r' t)) 0 (u (r' t)) | t <- iota 0 T.+1].
  rewrite /mkseq zip_iota -map_comp rev_mkseq; apply: eq_map => t /=.
  by rewrite aux_cov.
rewrite rev_mkseq subn0.
have -> : [seq Dyn ((K \o r) t) ((S \o r) t) ((mu \o r) t) | t <- iota 0 T] = [seq Dyn (K (T.-1 - t)) (S (T.-1 - t)) (mu (T.-1 - t)) | t <- iota 0 T] by [].
have -> : [seq Obs (1%:M : 'M[R]_d) (Rc (r' t)) 0 ((u \o r') t) | t <- iota 0 T.+1] = [seq Obs (1%:M : 'M[R]_d) (Rc (r' t)) 0 (u (r' t)) | t <- iota 0 T.+1] by [].
case: (filtering _ _ _ _) => filt el [/= sz hs eq].
pose mp t := nth (0, 0) filt (T - t)%N.
have fE : rev filt = mkseq mp T.+1.
  apply: (@eq_from_nth _ (0, 0)); rewrite ?size_mkseq ?size_rev // sz => i lt.
  by rewrite nth_rev sz // nth_mkseq // subSS.
rewrite fE /mkseq [iota 0 T.+1]/= [map _ (0%N :: _)]/= [head _ _]/= [behead _]/= (iotaDl 1 0) -map_comp zip_iota -map_comp.
pose f t := Dyn (K t) (S t) (mu t).
have hmp t : (t <= T)%N -> spd (mp t).2 by move=> _; apply: hs; exact: leq_subr.
have bwS t : (t < T)%N -> spd (bwC (f t) (mp t.+1)) by move=> lt; apply: post_spd; [exact: hmp|exact: hS].
rewrite [mp 0%N]surjective_pairing.
exists (fun t => bwA (f t) (mp t.+1)), (fun t => if t is t'.+1 then bwC (f t') (mp t) else (mp 0%N).2),
  (fun t => if t is t'.+1 then bwa (f t') (mp t) else (mp 0%N).1), el.
split.
- by rewrite size_map size_iota; split=> // -[|t] lt; [exact: hmp|exact: bwS].
- by move=> x e; split=> //; rewrite /tM0_logpdf mvn_inv_cholesky //; exact: hmp.
- move=> t lt xp x e; rewrite (nth_map 0%N) ?size_iota // nth_iota // add0n /=.
  rewrite add1n make_proposalE; [|exact: hmp|exact: hS].
  by split=> //; rewrite /tMt_logpdf mvn_inv_cholesky //; exact: bwS.
- move=> x; have := eq (x \o r'); rewrite /chain_logpdf /obs_logpdf /reverse_logpdf /= /r' subn0 subnn.
  have rr (t : 'I_T) : r (rev_ord t) = t by rewrite /r /= -subn1 subnAC subn1 /= subKn // -ltnS prednK ?ltn_ord // (leq_ltn_trans _ (ltn_ord t)).
  have r1 (t : 'I_T) : (T - (rev_ord t).+1 = t)%N by rewrite /= subnSK ?subKn // ltnW.
  have r2 (t : 'I_T) : (T - rev_ord t = t.+1)%N by rewrite /= subKn.
  rewrite (reindex_inj rev_ord_inj) /=.
  rewrite [in RHS](reindex_inj rev_ord_inj) /= big_mkord.
  have e1 : \sum_(i < T.+1) gauss_logpdf (Rc (T - i)%N) (u (T - i)%N) (1%:M *m x (T - i)%N + 0)
     = \sum_(t < T.+1) gauss_logpdf (Rc t) (u t) (x t).
    rewrite [RHS](reindex_inj rev_ord_inj) /=; apply: eq_bigr => t _.
    by rewrite subSS mul1mx addr0.
  rewrite e1 => E; rewrite -[RHS]/(el + gauss_logpdf (nth (0, 0) filt (T - 0)).2 (x 0%N) (nth (0, 0) filt (T - 0)).1 + _) subn0.
  transitivity (el + gauss_logpdf (nth (0, 0) filt T).2 (x 0%N) (nth (0, 0) filt T).1 +
    \sum_(j < T) gauss_logpdf (bwC (dyn_at (K \o r) (S \o r) (mu \o r) (T - j.+1)) (nth (0, 0) filt (T - j.+1)))
      (x (T - (T - j.+1))%N) (bwA (dyn_at (K \o r) (S \o r) (mu \o r) (T - j.+1)) (nth (0, 0) filt (T - j.+1)) *m
        x (T - (T - j.+1).+1)%N + bwa (dyn_at (K \o r) (S \o r) (mu \o r) (T - j.+1)) (nth (0, 0) filt (T - j.+1)))).
    rewrite -E; congr (_ + _ + _); apply: eq_bigr => t _.
    by have := r1 t; have := r2 t; have := rr t; rewrite /= => -> -> ->.
  congr (_ + _); apply: eq_bigr => t _; rewrite /mp /dyn_at /=.
  by have := r1 t; have := r2 t; have := rr t; rewrite /= => -> -> ->.
Qed.
End Proposals.

(** The weights and potentials. *)
Section Target.
Variables (d T : nat) (mT : 'cV[R]_d) (PT : 'M[R]_d) (K S : nat -> 'M[R]_d) (mu u : nat -> 'cV[R]_d) (delta ell : nat -> R).
Hypotheses (hP : spd PT) (hS : forall t, spd (S t)) (hl : forall t, 0 < ell t).
Variables (rv : (nat -> 'cV[R]_d) -> nat -> R) (gv : (nat -> 'cV[R]_d) -> nat -> 'cV[R]_d).
Local Notation revs := [seq Dyn (K t) (S t) (mu t) | t <- iota 0 T].
Local Notation Rc t := ((ell t / 2%:R)%:M : 'M[R]_d).

Lemma scalar_quad (a : R) (v : 'cV[R]_d) : quad a%:M v = a * sqn v.
Proof. by rewrite quadE mul_scalar_mx dotvZr sqnE. Qed.

Lemma Rc_gauss t (v m : 'cV[R]_d) : gauss_logpdf (Rc t) v m = - sqn (v - m) / ell t - ln (\det (Rc t)) / 2%:R - d%:R * ln (2%:R * PI) / 2%:R.
Proof.
rewrite /gauss_logpdf /gauss_kernel invmx_scalar scalar_quad; congr (_ - _ - _).
by have := lt0r_neq0 (hl t); move: (ell t) (sqn _) => a q /eqP a0; toR; field.
Qed.

Lemma correctionE t x g : tcorrection (u t) x g (delta t) (ell t) =
  gauss_logpdf (Rc t) (u t) (x + (delta t / 2%:R) *: g) - gauss_logpdf (Rc t) (u t) x.
Proof.
rewrite !Rc_gauss /tcorrection opprD addrA mul1r [2%:R^-1 * _]mulrC !mulNr.
set a := sqn _ / _; set b := sqn _ / _; set e := ln _ / _; set h := _ / 2%:R.
by clearbody a b e h; clear; toR; lra.
Qed.

Lemma kernelE (C : 'M[R]_d) x m : gauss_kernel C x m = gauss_logpdf C x m + (ln (\det C) / 2%:R + d%:R * ln (2%:R * PI) / 2%:R).
Proof. by rewrite /gauss_logpdf; move: (gauss_kernel _ _ _) (ln (\det C)) (d%:R * _ / _) => *; toR; lra. Qed.

Theorem twisted_target :
  let: (p0, ps) := twisted_params (mT, PT) revs (mkseq u T.+1) (mkseq ell T.+1) in
  exists c, forall x,
    tGamma_0 p0 (u 0%N) (delta 0%N) (ell 0%N) (rv x 0%N) (gv x 0%N) (x 0%N)
    + \sum_(t < T) tGamma_t (nth p0 ps t) (u t.+1) (delta t.+1) (ell t.+1) (rv x t.+1) (gv x t.+1) (x t) (x t.+1)
    = c + reverse_logpdf T mT PT K S mu x
      + \sum_(t < T.+1) (rv x t + gauss_logpdf (Rc t) (u t) (x t + (delta t / 2%:R) *: gv x t)).
Proof.
have := twisted_exact T mT K mu u hP hS hl.
case: (twisted_params _ _ _ _) => p0 ps [A [C [a [c [[sz hC] h0 ht eq]]]]].
pose k t := ln (\det (C t)) / 2%:R + d%:R * ln (2%:R * PI) / 2%:R.
exists (k 0%N + \sum_(t < T) k t.+1 - c) => x.
have -> : \sum_(t < T) tGamma_t (nth p0 ps t) (u t.+1) (delta t.+1) (ell t.+1) (rv x t.+1) (gv x t.+1) (x t) (x t.+1)
  = \sum_(t < T) (rv x t.+1 + gauss_logpdf (Rc t.+1) (u t.+1) (x t.+1 + (delta t.+1 / 2%:R) *: gv x t.+1))
    - \sum_(t < T) gauss_logpdf (Rc t.+1) (u t.+1) (x t.+1)
    + \sum_(t < T) gauss_logpdf (C t.+1) (x t.+1) (A t *m x t + a t.+1) + \sum_(t < T) k t.+1.
  rewrite -sumrB -!big_split /=; apply: eq_bigr => t _.
  rewrite /tGamma_t (proj2 (ht t (ltn_ord t) _ _ 0)) correctionE kernelE -/(k t.+1).
  by move: (gauss_logpdf _ _ _) (gauss_logpdf _ _ _) (gauss_logpdf _ _ _) (rv _ _) (k _); clear; move=> *; toR; lra.
have := eq x; rewrite /tGamma_0 (proj2 (h0 _ 0)) correctionE (kernelE (C 0%N)) -/(k 0%N).
have sh (G : nat -> R) : \sum_(t < T.+1) G t = G 0%N + \sum_(t < T) G t.+1 by rewrite big_ord_recl.
rewrite (sh (fun t => gauss_logpdf (Rc t) (u t) (x t))).
rewrite (sh (fun t => rv x t + gauss_logpdf (Rc t) (u t) (x t + (delta t / 2%:R) *: gv x t))).
set g1 := gauss_logpdf (Rc 0%N) _ (_ + _); set g2 := gauss_logpdf (Rc 0%N) _ _.
set s1 := \sum_(t < T) gauss_logpdf (Rc _) _ _; set s2 := \sum_(t < T) (_ + _).
set s3 := \sum_(t < T) gauss_logpdf (C _) _ _; set s4 := \sum_(t < T) k _.
set g3 := gauss_logpdf (C 0%N) _ _; set rl := reverse_logpdf _ _ _ _ _ _ _.
clearbody g1 g2 s1 s2 s3 s4 g3 rl; move: (k 0%N) (rv x 0%N); clear; move=> *; toR; lra.
Qed.

Lemma twisted_target_at p0 ps : twisted_params (mT, PT) revs (mkseq u T.+1) (mkseq ell T.+1) = (p0, ps) ->
  exists c, forall x,
    tGamma_0 p0 (u 0%N) (delta 0%N) (ell 0%N) (rv x 0%N) (gv x 0%N) (x 0%N)
    + \sum_(t < T) tGamma_t (nth p0 ps t) (u t.+1) (delta t.+1) (ell t.+1) (rv x t.+1) (gv x t.+1) (x t) (x t.+1)
    = c + reverse_logpdf T mT PT K S mu x
      + \sum_(t < T.+1) (rv x t + gauss_logpdf (Rc t) (u t) (x t + (delta t / 2%:R) *: gv x t)).
Proof. by move=> e; have := twisted_target; rewrite e. Qed.
End Target.

(** ** Final forms *)
Definition rev_ok (d : nat) (F P : 'M[R]_d) (b m : 'cV[R]_d) : Prop :=
  [/\ F *m P = P *m F^T, F^T *m P *m F = F *m P *m F^T & F^T *m m - F^T *m b = F *m m + b].

Lemma reversed_chain_exact d T m0 P0 (F Q : nat -> 'M[R]_d) b :
  spd P0 -> (forall t, spd (Q t)) ->
  (forall t, (t < T)%N -> rev_ok (F t) (cov_at P0 F Q t) (b t) (mean_at m0 F b t)) ->
  exists (mT : 'cV[R]_d) (PT : 'M[R]_d) (K S : nat -> 'M[R]_d) (mu : nat -> 'cV[R]_d),
  [/\ get_reversed_dynamics (m0, P0) [seq Dyn (F t) (Q t) (b t) | t <- iota 0 T]
      = ((mT, PT), [seq Dyn (K t) (S t) (mu t) | t <- iota 0 T]),
      spd PT, forall t, spd (S t)
    & forall x, chain_logpdf T m0 P0 F Q b x = reverse_logpdf T mT PT K S mu x].
Proof.
move=> hP hQ H; pose r := exact_rev m0 P0 F Q b.
exists (mean_at m0 F b T), (cov_at P0 F Q T), (fun t => dF (r t)), (fun t => dQ (r t)), (fun t => db (r t)).
split; [| exact: cov_spd | by move=> t; apply: post_spd; [exact: cov_spd|exact: hQ] | by move=> x; exact: reverse_chain].
exact: (@reversedE d m0 P0 F Q b hP hQ T 0 H).
Qed.

Lemma twisted_target_exact d T m0 P0 (F Q : nat -> 'M[R]_d) b (u : nat -> 'cV[R]_d) (delta ell : nat -> R) rv gv :
  spd P0 -> (forall t, spd (Q t)) -> (forall t, 0 < ell t) ->
  (forall t, (t < T)%N -> rev_ok (F t) (cov_at P0 F Q t) (b t) (mean_at m0 F b t)) ->
  let: (final, revs) := get_reversed_dynamics (m0, P0) [seq Dyn (F t) (Q t) (b t) | t <- iota 0 T] in
  let: (p0, ps) := twisted_params final revs (mkseq u T.+1) (mkseq ell T.+1) in
  exists c, forall x : nat -> 'cV[R]_d,
    tGamma_0 p0 (u 0%N) (delta 0%N) (ell 0%N) (rv x 0%N) (gv x 0%N) (x 0%N)
    + \sum_(t < T) tGamma_t (nth p0 ps t) (u t.+1) (delta t.+1) (ell t.+1) (rv x t.+1) (gv x t.+1) (x t) (x t.+1)
    = c + chain_logpdf T m0 P0 F Q b x
      + \sum_(t < T.+1) (rv x t + gauss_logpdf (ell t / 2%:R)%:M (u t) (x t + (delta t / 2%:R) *: gv x t)).
Proof.
move=> hP hQ hl H; have [mT [PT [K [S [mu [-> h1 h2 h3]]]]]] := reversed_chain_exact hP hQ H.
have := twisted_target T mT K mu u delta h1 h2 hl rv gv.
by case: (twisted_params _ _ _ _) => p0 ps [c Hc]; exists c => x; rewrite Hc h3.
Qed.

(** One dimension, one step, drift 1. *)
Lemma drift_bad : ~ rev_ok (1%:M : 'M[R]_1) 1%:M 1%:M 0.
Proof.
move=> [_ _]; rewrite trmx1 !mul1mx sub0r add0r => /matrixP/(_ 0 0); rewrite !mxE /=.
by clear; toR; lra.
Qed.

(** Two dimensions, no drift. *)
Definition shear : 'M[R]_2 := \matrix_(i, j) (if (i <= j)%N then 1 else 0).
Lemma shear_bad : ~ rev_ok shear 1%:M 0 0.
Proof.
move=> [H _ _]; move: H; rewrite mulmx1 mul1mx => /matrixP/(_ 0 1); rewrite !mxE /=.
by clear; toR; lra.
Qed.

Lemma reversed_refuted d (F P Q : 'M[R]_d) b m : spd P -> spd Q -> ~ rev_ok F P b m ->
  let: ((m', P'), Dyn K Sigma mu) := reversed_body (m, P) (Dyn F Q b) in
  ~ (spd P' /\ spd Sigma /\ forall x x',
     gauss_logpdf P x m + gauss_logpdf Q x' (F *m x + b) = gauss_logpdf P' x' m' + gauss_logpdf Sigma x (K *m x' + mu)).
Proof.
move=> hP hQ ne; have := reversed_step_iff F b m hP hQ; rewrite /reversed_body.
by move=> iff [h1 [h2 h3]]; apply: ne; apply/iff.
Qed.

Lemma rev_spd d (F P Q : 'M[R]_d) b m : spd P -> spd Q -> F *m P = P *m F^T -> F^T *m P *m F = F *m P *m F^T ->
  let: ((m', P'), f) := reversed_body (m, P) (Dyn F Q b) in spd P' /\ spd (dQ f).
Proof.
move=> hP hQ e1 e2; have sC : spd (post P Q F) by exact: post_spd.
have eg : get_gain F Q P = gain P Q F by apply/get_gain_iff.
rewrite /reversed_body -/(half_sum (F^T *m P *m F + Q)) half_innov // e2 eg -post_alt //= -/(half_sum (post P Q F)) half_sumE; last by case: sC.
by split=> //; exact: innov_spd.
Qed.

Lemma target_refuted d (F P Q : 'M[R]_d) b m (u : nat -> 'cV[R]_d) (delta ell : nat -> R) :
  spd P -> spd Q -> (forall t, 0 < ell t) -> F *m P = P *m F^T -> F^T *m P *m F = F *m P *m F^T -> ~ rev_ok F P b m ->
  let: (final, revs) := get_reversed_dynamics (m, P) [:: Dyn F Q b] in
  let: (p0, ps) := twisted_params final revs (mkseq u 2) (mkseq ell 2) in
  ~ exists c, forall x : nat -> 'cV[R]_d,
    tGamma_0 p0 (u 0%N) (delta 0%N) (ell 0%N) 0 0 (x 0%N) + tGamma_t (nth p0 ps 0) (u 1%N) (delta 1%N) (ell 1%N) 0 0 (x 0%N) (x 1%N)
    = c + chain_logpdf 1 m P (fun=> F) (fun=> Q) (fun=> b) x + \sum_(t < 2) gauss_logpdf (ell t / 2%:R)%:M (u t) (x t).
Proof.
move=> hP hQ hl e1 e2 ne.
have [h1 h2] := rev_spd b m hP hQ e1 e2.
have only := fun c => @reversed_step_only _ F Q P b m hP hQ c.
move: h1 h2 only; rewrite /reversed_body.
set m' := _ - _; set P' := _ *: _; set K := get_gain F Q P; set S := _ *: _; set mu := m - _ => h1 h2 only.
have -> : get_reversed_dynamics (m, P) [:: Dyn F Q b] = ((m', P'), [:: Dyn K S mu]) by [].
move e : (twisted_params _ _ _ _) => tp; case: tp e => p0 ps e [c' Hc'].
have [c Hc] := @twisted_target_at d 1 m' P' (fun=> K) (fun=> S) (fun=> mu) u delta ell h1 (fun=> h2) hl (fun _ _ => 0) (fun _ _ => 0) p0 ps e.
apply: ne; apply: (only (c - c')) => // x x'.
have := Hc' (fun t => if t is 0%N then x else x'); have := Hc (fun t => if t is 0%N then x else x').
rewrite big_ord1 => ->; rewrite /chain_logpdf /reverse_logpdf !big_ord1 !big_ord_recl !big_ord0 /bump /= !add0r !scaler0 !addr0.
by move: (gauss_logpdf _ _ _) (gauss_logpdf _ _ _) (gauss_logpdf _ _ _) (gauss_logpdf _ _ _) (gauss_logpdf _ _ _) (gauss_logpdf _ _ _); clear; move=> *; toR; lra.
Qed.

Lemma drift_target (u : nat -> 'cV[R]_1) (delta ell : nat -> R) : (forall t, 0 < ell t) ->
  let: (final, revs) := get_reversed_dynamics (0, 1%:M) [:: Dyn 1%:M 1%:M (1%:M : 'cV[R]_1)] in
  let: (p0, ps) := twisted_params final revs (mkseq u 2) (mkseq ell 2) in
  ~ exists c, forall x : nat -> 'cV[R]_1,
    tGamma_0 p0 (u 0%N) (delta 0%N) (ell 0%N) 0 0 (x 0%N) + tGamma_t (nth p0 ps 0) (u 1%N) (delta 1%N) (ell 1%N) 0 0 (x 0%N) (x 1%N)
    = c + chain_logpdf 1 0 1%:M (fun=> 1%:M) (fun=> 1%:M) (fun=> 1%:M) x + \sum_(t < 2) gauss_logpdf (ell t / 2%:R)%:M (u t) (x t).
Proof.
move=> hl; apply: target_refuted => //; [exact: ex_pos|exact: ex_pos| | |exact: drift_bad].
- by rewrite trmx1.
- by rewrite trmx1.
Qed.
