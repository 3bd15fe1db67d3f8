(** * DensityTwisted: the density theorem for t_atp_csmc_f.py on R^d. *)
From Coq Require Import Reals FunctionalExtensionality Lra.
From mathcomp Require Import all_ssreflect all_algebra.
From Verif Require Import RInst Prog ProgTheory Resampling Spec ResamplingProofs.
From Verif Require Import KillingProofs MoveProofs ResamplingSpecs Csmc SmcTheory BackwardProofs.
From Verif Require Import CsmcInvariance CsmcProofs FrozenTheory DensitySpec DensityModel DensityProofs AuxCsmc DensityInst DensityFinal.
From Verif Require Import Gauss GaussSpec GaussProofs MarginalProofs MarginalFinal AuxFinal Kalman KalmanSpec CholProofs KalmanProofs.
From Verif Require Import Twisted TwistedProofs TwistedReal DensityTp.

Set Implicit Arguments.
Unset Strict Implicit.
Unset Printing Implicit Defensive.
Import GRing.Theory Num.Theory Order.TTheory.
Local Open Scope ring_scope.

Lemma log_path_nth (X Q : Type) (G : X -> X -> Q -> R) x xs qs x0 q0 : size xs = size qs ->
  log_path G x xs qs = \sum_(t < size qs) G (nth x0 (x :: xs) t) (nth x0 xs t) (nth q0 qs t).
Proof.
elim: qs x xs => [|q qs IH] x [|y xs] //=; first by rewrite big_ord0.
by move=> [/IH e]; rewrite big_ord_recl /= e.
Qed.

Section Keeps.
Variables (X : Type) (n' : nat) (P Q : Type) (md : model X n' P Q).
Local Notation n := n'.+1.
Local Notation pop := (pop X n').
Variables (D0 : 'I_n -> pop -> R) (Dt : P -> pop -> 'I_n -> pop -> R) (rs : resampler n) (mv : mover n).
Variables (target : X -> seq X -> R) (key : key) (ps : seq P) (qs : seq Q) (y0 : pop) (ys : seq pop) (k : R).
Hypotheses (a0 : alike0 md D0) (at_ : aliket md Dt ps) (rs_good : good_resampler rs) (k0 : 0 <= k).
Hypotheses (s1 : size ps = size qs) (s3 : size ys = size qs).
Hypothesis tE : forall x xs, size xs = size qs -> target x xs = k * path_target (Gamma0 md) (Gammat md) qs x xs.

Lemma keeps_upto : good_mover mv -> csmc_keeps md D0 Dt rs mv target key ps qs y0 ys.
Proof.
move=> gm f; apply: (@idx_transfer _ _ k _ (fun b0 bs => path_target (Gamma0 md) (Gammat md) qs (y0 b0) (pick ys bs))).
  by move=> b0 bs sz; rewrite tE // size_pick // s3.
exact: csmc_density.
Qed.

Lemma nearly_upto c : csmc_nearly_keeps md D0 Dt rs (@force_move _) target key ps qs y0 ys c (force_eps n'.+1 c).
Proof.
move=> f fc; cbv zeta.
have JT b0 bs : size bs = size qs -> target (y0 b0) (pick ys bs) = k * path_target (Gamma0 md) (Gammat md) qs (y0 b0) (pick ys bs).
  by move=> sz; rewrite tE // size_pick // s3.
have tr C : idx_sum (size qs) (fun b0 bs => target (y0 b0) (pick ys bs) * C b0 bs)
  = k * idx_sum (size qs) (fun b0 bs => path_target (Gamma0 md) (Gammat md) qs (y0 b0) (pick ys bs) * C b0 bs).
  by rewrite -idx_sum_scale; apply: idx_sum_ext => b0 bs sz; rewrite JT // mulrA.
rewrite !tr -mulrBr normrM (ger0_norm k0); apply: ler_wpmul2l => //.
exact: (@csmc_nearly X n' P Q md rs key ps qs y0 ys f c D0 Dt).
Qed.
End Keeps.

Section Twisted.
Variables (d n' : nat) (Q : Type).
Local Notation vec := 'cV[R]_d.
Local Notation mat := 'M[R]_d.
Local Notation n := n'.+1.
Local Notation pop := (pop vec n').
Variables (r0 : vec -> R) (rt : vec -> vec -> Q -> R) (g0 : vec -> vec) (gt : vec -> vec -> Q -> vec).
Variables (T : nat) (m0 : vec) (P0 : mat) (F Qm : nat -> mat) (b u : nat -> vec) (delta ell : nat -> R) (q : nat -> Q).
Hypotheses (hP : spd P0) (hQ : forall t, spd (Qm t)) (hl : forall t, 0 < ell t).
Hypothesis H : forall t, (t < T)%N -> rev_ok (F t) (cov_at P0 F Qm t) (b t) (mean_at m0 F b t).

Local Notation us := [seq u t.+1 | t <- iota 0 T].
Local Notation qs := [seq (delta t.+1, ell t.+1, q t.+1) | t <- iota 0 T].
Local Notation target := (path_target
  (fun x => gauss_logpdf P0 x m0 + r0 x + gauss_logpdf (ell 0%N / 2%:R)%:M (u 0%N) (x + (delta 0%N / 2%:R) *: g0 x))
  (fun x x' t => gauss_logpdf (Qm t) x' (F t *m x + b t) + rt x x' (q t.+1)
     + gauss_logpdf (ell t.+1 / 2%:R)%:M (u t.+1) (x' + (delta t.+1 / 2%:R) *: gt x x' (q t.+1))) (iota 0 T)).

Lemma tw_gamma (w : tprop d) (uu x g : vec) (de el r l : R) :
  r + (sizes_ld (de, el) (uu - x - sizes_step (de, el) g) - sizes_ld (de, el) (uu - x) + l)
  = r + (tcorrection uu x g de el + l).
Proof. by rewrite /sizes_ld /sizes_step /tcorrection /= !mulNr opprK. Qed.

Lemma tw_target :
  let: (final, revs) := get_reversed_dynamics (m0, P0) [seq Dyn (F t) (Qm t) (b t) | t <- iota 0 T] in
  let: (p0, ps) := twisted_params final revs (mkseq u T.+1) (mkseq ell T.+1) in
  size ps = T /\ exists2 k, 0 <= k & forall rvs0 rvs x xs, size xs = T ->
   let md := @tw_vec d n' Q r0 rt g0 gt (delta 0%N, ell 0%N) p0 (u 0%N) rvs0 rvs in
   target x xs = k * path_target (Gamma0 md) (Gammat md) (zip (zip us qs) ps) x xs.
Proof.
pose rv (x : nat -> vec) t := if t is t'.+1 then rt (x t') (x t) (q t) else r0 (x 0%N).
pose gv (x : nat -> vec) t := if t is t'.+1 then gt (x t') (x t) (q t) else g0 (x 0%N).
have := @twisted_target_exact d T m0 P0 F Qm b u delta ell rv gv hP hQ hl H.
have [mT [PT [K [S [mu [-> h1 h2 _]]]]]] := reversed_chain_exact hP hQ H.
have := @twisted_exact d T mT PT K S mu u ell h1 h2 hl.
case: (twisted_params _ _ _ _) => p0 ps [A [C [a [c0 [[sp _] _ _ _]]]]] [c E]; split=> //.
exists (exp (- c)) => [|rvs0 rvs x xs sx md]; first exact/ltW/expR_gt0.
rewrite /path_target -expRD; congr exp.
pose p t := nth 0 (x :: xs) t : vec.
have := E p; rewrite /chain_logpdf big_ord_recl /= => Ep.
rewrite (@log_path_nth _ _ _ x xs (iota 0 T) 0 0%N) ?size_iota //.
rewrite (@log_path_nth _ _ _ x xs (zip (zip us qs) ps) 0 (0, (0, 0, q 0%N), p0)) ?size_zip ?size_map ?size_iota ?minnn ?sp ?minnn //.
rewrite [X in _ = _ + (_ + X)](_ : _ = \sum_(t < T) tGamma_t (nth p0 ps t) (u t.+1) (delta t.+1)
   (ell t.+1) (rt (p t) (p t.+1) (q t.+1)) (gt (p t) (p t.+1) (q t.+1)) (p t) (p t.+1)); last first.
  apply: eq_bigr => t _; rewrite !nth_zip ?size_zip ?size_map ?size_iota ?minnn ?sp // !(nth_map 0%N) ?size_iota //.
  by rewrite nth_iota // add0n /tw_Gamma_t /= tw_gamma.
have -> : tw_Gamma_0 (sizes_ld (delta 0%N, ell 0%N)) (sizes_step (delta 0%N, ell 0%N)) (@tM0_logpdf d) r0 g0 p0 (u 0%N) x
  = tGamma_0 p0 (u 0%N) (delta 0%N) (ell 0%N) (r0 x) (g0 x) x by rewrite /tw_Gamma_0 tw_gamma.
rewrite Ep.
rewrite [X in _ + X = _](_ : _ = \sum_(t < T) gauss_logpdf (Qm t) (p t.+1) (F t *m p t + b t)
  + \sum_(t < T) (rt (p t) (p t.+1) (q t.+1) + gauss_logpdf (ell t.+1 / 2%:R)%:M (u t.+1)
              (p t.+1 + (delta t.+1 / 2%:R) *: gt (p t) (p t.+1) (q t.+1)))); last first.
  by rewrite -big_split /=; apply: eq_bigr => t _; rewrite nth_iota // add0n addrA.
have sw (c1 g1 g2 r s1 s2 : R) : g1 + r + g2 + (s1 + s2) = - c1 + (c1 + (g1 + s1) + (r + g2 + s2)).
  by clear; toR; ring.
exact: sw.
Qed.

Local Notation D0 p0 := (fun b y => \prod_(i | i != b) exp (gauss_kernel (t_chol p0 *m (t_chol p0)^T) (y i) (tc p0))).
Local Notation Dt := (fun p xm b y =>
  \prod_(i | i != b) exp (gauss_kernel (t_chol p *m (t_chol p)^T) (y i) (tA p *m xm i + tc p))).

Lemma tw_alike :
  let: (final, revs) := get_reversed_dynamics (m0, P0) [seq Dyn (F t) (Qm t) (b t) | t <- iota 0 T] in
  let: (p0, ps) := twisted_params final revs (mkseq u T.+1) (mkseq ell T.+1) in
  forall rvs0 rvs, let md := @tw_vec d n' Q r0 rt g0 gt (delta 0%N, ell 0%N) p0 (u 0%N) rvs0 rvs in
  alike0 md (D0 p0) /\ aliket md Dt ps.
Proof.
have [mT [PT [K [S [mu [-> h1 h2 _]]]]]] := reversed_chain_exact hP hQ H.
have := @twisted_exact d T mT PT K S mu u ell h1 h2 hl.
case: (twisted_params _ _ _ _) => p0 ps [A [C [a [c0 [[sp hC] e0 et _]]]]] rvs0 rvs md.
have lin (U V : mat) (v w : vec) : (forall e, v + U *m e = w + V *m e) -> v = w /\ U = V.
  move=> h; have e : v = w by have := h 0; rewrite !mulmx0 !addr0.
  split=> //; apply/matrixP => i j.
  have := h (delta_mx j 0); rewrite e => /addrI/(congr1 (fun m : vec => m i 0)).
  by rewrite -!colE !mxE.
have E0 x : tM0_logpdf p0 x = gauss_kernel (t_chol p0 *m (t_chol p0)^T) x (tc p0).
  have [-> ->] : tc p0 = a 0%N /\ t_chol p0 = cholesky (C 0%N) by apply: lin => e; have [] := e0 0 e.
  by have [_ _ ->] := cholesky_ok (hC 0%N isT); have [_ ->] := e0 x 0.
have Et p : List.In p ps -> forall xp x, tMt_logpdf p xp x = gauss_kernel (t_chol p *m (t_chol p)^T) x (tA p *m xp + tc p).
  move=> ip; have [t tT ->] : exists2 t, (t < T)%N & p = nth p0 ps t.
    rewrite -sp; elim: ps ip {sp et} => [|p1 ps1 IH] //= [<-|/IH [t tT ->]]; first by exists 0%N.
    by exists t.+1.
  move=> xp x.
  have [e1 e2] : tA (nth p0 ps t) *m xp + tc (nth p0 ps t) = A t *m xp + a t.+1 /\ t_chol (nth p0 ps t) = cholesky (C t.+1).
    by apply: lin => e; have [] := et t tT xp 0 e.
  rewrite e1 e2; have [_ _ ->] := cholesky_ok (hC t.+1 tT).
  by have [_] := et t tT xp x 0.
split.
  move=> y k k'; have := independent_alike0 md y k k'; rewrite /= /tw_M0_logpdf.
  have e j : \prod_(i | i != j) exp (tM0_logpdf p0 (y i)) = D0 p0 j y by apply: eq_bigr => i _; rewrite E0.
  by rewrite !e.
move=> p ip xm y k k'; have := @independent_aliket _ _ _ _ md ps p ip xm y k k'; rewrite /= /tw_Mt_logpdf.
have e j : \prod_(i | i != j) exp (tMt_logpdf p (xm i) (y i)) = Dt p xm j y by apply: eq_bigr => i _; rewrite (Et p ip).
by rewrite !e.
Qed.

Variables (rs : resampler n) (mv : mover n) (key : key) (y0 : pop) (ys : seq pop).
Hypotheses (rs_good : good_resampler rs) (sy : size ys = T).

Lemma tw_keeps : good_mover mv ->
  let: (final, revs) := get_reversed_dynamics (m0, P0) [seq Dyn (F t) (Qm t) (b t) | t <- iota 0 T] in
  let: (p0, ps) := twisted_params final revs (mkseq u T.+1) (mkseq ell T.+1) in
  forall rvs0 rvs, csmc_keeps (tw_vec r0 rt g0 gt (delta 0%N, ell 0%N) p0 (u 0%N) rvs0 rvs) (D0 p0) Dt
    rs mv target key ps (zip (zip us qs) ps) y0 ys.
Proof.
move=> gm; move: tw_target tw_alike.
case: (get_reversed_dynamics _ _) => final revs; case: (twisted_params _ _ _ _) => p0 ps [sp [k k0 tE]] al rvs0 rvs.
have sz : size (zip (zip us qs) ps) = T by rewrite !size_zip !size_map size_iota sp !minnn.
have [a0 at_] := al rvs0 rvs.
apply: (@keeps_upto _ _ _ _ _ _ _ _ _ _ key ps _ y0 ys k a0 at_ rs_good); [by rewrite sz|by rewrite sz| |exact: gm].
by move=> x xs; rewrite sz => sx; apply: tE.
Qed.

Lemma tw_nearly c :
  let: (final, revs) := get_reversed_dynamics (m0, P0) [seq Dyn (F t) (Qm t) (b t) | t <- iota 0 T] in
  let: (p0, ps) := twisted_params final revs (mkseq u T.+1) (mkseq ell T.+1) in
  forall rvs0 rvs, csmc_nearly_keeps (tw_vec r0 rt g0 gt (delta 0%N, ell 0%N) p0 (u 0%N) rvs0 rvs) (D0 p0) Dt
    rs (@force_move _) target key ps (zip (zip us qs) ps) y0 ys c (force_eps n c).
Proof.
move: tw_target tw_alike.
case: (get_reversed_dynamics _ _) => final revs; case: (twisted_params _ _ _ _) => p0 ps [sp [k k0 tE]] al rvs0 rvs.
have sz : size (zip (zip us qs) ps) = T by rewrite !size_zip !size_map size_iota sp !minnn.
have [a0 at_] := al rvs0 rvs.
apply: (@nearly_upto _ _ _ _ _ _ _ _ _ key ps _ y0 ys k a0 at_ rs_good k0); [by rewrite sz|by rewrite sz|].
by move=> x xs; rewrite sz => sx; apply: tE.
Qed.
End Twisted.

Lemma ex_chain (d : nat) (a : nat -> R) (P0 : 'M[R]_d) (Qm : nat -> 'M[R]_d) (t : nat) :
  let F t := (a t)%:M in let b t := 0 : 'cV[R]_d in
  let P := cov_at P0 F Qm t in let m := mean_at 0 F b t in
  [/\ F t *m P = P *m (F t)^T, (F t)^T *m P *m F t = F t *m P *m (F t)^T
    & (F t)^T *m m - (F t)^T *m b t = F t *m m + b t].
Proof.
cbv zeta; rewrite tr_scalar_mx scalar_mxC !mulmx0 subr0 addr0; split=> //.
Qed.
