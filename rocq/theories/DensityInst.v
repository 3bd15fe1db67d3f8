(** * DensityInst: the sweep theorem for rw_csmc.py, al_csmc_f.py and l_csmc_f.py. *)
From Coq Require Import Reals FunctionalExtensionality Lra.
From mathcomp Require Import all_ssreflect all_algebra.
From Verif Require Import RInst Prog ProgTheory Resampling Spec ResamplingProofs.
From Verif Require Import KillingProofs MoveProofs ResamplingSpecs Csmc SmcTheory BackwardProofs.
From Verif Require Import CsmcInvariance CsmcProofs FrozenTheory DensitySpec DensityProofs AuxCsmc DensityAux.
From Verif Require Import Gauss GaussSpec GaussProofs MarginalFinal.

Set Implicit Arguments.
Unset Strict Implicit.
Unset Printing Implicit Defensive.
Import GRing.Theory Num.Theory Order.TTheory.
Local Open Scope ring_scope.

Section Weighted.
Variables (X : Type) (n : nat).

Lemma idx_sum_ext m (F G : 'I_n -> seq 'I_n -> R) :
  (forall b0 bs, size bs = m -> F b0 bs = G b0 bs) -> idx_sum m F = idx_sum m G.
Proof. by move=> H; apply: eq_bigr => b0 _; apply: eq_bigr => bs _; rewrite H ?size_tuple. Qed.

Lemma idx_sum_scale m (K : R) (F : 'I_n -> seq 'I_n -> R) : idx_sum m (fun b0 bs => K * F b0 bs) = K * idx_sum m F.
Proof. by rewrite mulr_sumr; apply: eq_bigr => b0 _; rewrite mulr_sumr. Qed.

(** [J] is [T] up to a factor. *)
Lemma idx_transfer m (K : R) (J T A B : 'I_n -> seq 'I_n -> R) :
  (forall b0 bs, size bs = m -> J b0 bs = K * T b0 bs) ->
  idx_sum m (fun b0 bs => T b0 bs * A b0 bs) = idx_sum m (fun b0 bs => T b0 bs * B b0 bs) ->
  idx_sum m (fun b0 bs => J b0 bs * A b0 bs) = idx_sum m (fun b0 bs => J b0 bs * B b0 bs).
Proof.
move=> JT e.
transitivity (K * idx_sum m (fun b0 bs => T b0 bs * A b0 bs)).
  by rewrite -idx_sum_scale; apply: idx_sum_ext => b0 bs sz; rewrite JT // mulrA.
by rewrite e -idx_sum_scale; apply: idx_sum_ext => b0 bs sz; rewrite JT // mulrA.
Qed.

Lemma idx_transfer_error m (K eps : R) (J T A B : 'I_n -> seq 'I_n -> R) : 0 <= K ->
  (forall b0 bs, size bs = m -> J b0 bs = K * T b0 bs) ->
  `|idx_sum m (fun b0 bs => T b0 bs * A b0 bs) - idx_sum m (fun b0 bs => T b0 bs * B b0 bs)|
    <= idx_sum m (fun b0 bs => T b0 bs * eps) ->
  `|idx_sum m (fun b0 bs => J b0 bs * A b0 bs) - idx_sum m (fun b0 bs => J b0 bs * B b0 bs)|
    <= idx_sum m (fun b0 bs => J b0 bs * eps).
Proof.
move=> K0 JT e.
have tr C : idx_sum m (fun b0 bs => J b0 bs * C b0 bs) = K * idx_sum m (fun b0 bs => T b0 bs * C b0 bs).
  by rewrite -idx_sum_scale; apply: idx_sum_ext => b0 bs sz; rewrite JT // mulrA.
have -> : idx_sum m (fun b0 bs => J b0 bs * eps) = K * idx_sum m (fun b0 bs => T b0 bs * eps).
  exact: (tr (fun _ _ => eps)).
by rewrite !tr -mulrBr normrM (ger0_norm K0); apply: ler_wpmul2l.
Qed.

End Weighted.

Lemma normalize_log_shift n' (lw : 'I_n'.+1 -> R) : exists k, forall i, normalize_log lw i = lw i - k.
Proof. by exists (logsumexp lw). Qed.

Lemma minus_max_shift n' (lw : 'I_n'.+1 -> R) : exists k, forall i, @minus_max n' lw i = lw i - k.
Proof. by exists (amax lw). Qed.

Section Instances.
Variables (X : zmodType) (n' : nat) (Q setting : Type).
Local Notation n := n'.+1.
Local Notation pop := (pop X n').
Variables (ld : setting -> X -> R) (scale : setting -> X -> X).
Variable logH : setting -> pop -> X -> X -> R.
Variables (G0 : X -> R) (Gt : X -> X -> Q -> R) (g0 : X -> X) (gt : X -> X -> Q -> X).
Variables (rs : resampler n) (mv : mover n).

(** A sweep whose weights do not look at the whole generation. *)
Lemma log_path_zip (P : Type) (wt : X -> X -> P -> R) (pp : seq P) (ys : seq pop) xm xs : size pp = size ys ->
  log_path (fun x x' (p : pop * P) => wt x x' p.2) xm xs (zip ys pp) = log_path wt xm xs pp.
Proof. by elim: pp ys xm xs => [|q pp IH] [|y ys] xm [|x xs] //= [s]; rewrite IH. Qed.

Lemma All2_self (A B : Type) (Rel : A -> B * A -> Prop) (l : seq A) (m : seq B) : size l = size m ->
  (forall a b, Rel a (b, a)) -> All2 Rel l (zip m l).
Proof. by move=> sz H; elim: l m sz => [|a l IH] [|b m] //= [sz]; split=> //; apply: IH. Qed.

Hypothesis rs_good : good_resampler rs.

Section Plain.
Variables (PP : Type) (W0 : pop -> lwts n') (Wt : pop -> pop -> PP -> lwts n') (post : lwts n' -> lwts n').
Variables (wof : lwts n' -> 'I_n -> R) (Gam : X -> X -> PP -> R) (w0 : X -> R) (wt : X -> X -> PP -> R) (y0 : pop).
Hypothesis W0E : forall i, W0 y0 i = w0 (y0 i).
Hypothesis WtE : forall xm xt p i, Wt xm xt p i = wt (xm i) (xt i) p.
Hypothesis postE : forall lw, exists k, forall i, post lw i = lw i - k.
Hypothesis wofE : forall lw, wof (post lw) = normalize (post lw).
Hypothesis GamE : forall p, exists d, forall x x', wt x x' p = Gam x x' p + d x'.
Variables (key : key) (ys : seq pop) (pp : seq PP) (backward : bool).
Hypothesis sz : size pp = size ys.
Local Notation kern b0 bs := (drop_weights (sweep rs mv W0 Wt post wof Gam key b0 bs y0 ys pp pp backward)).

Lemma plain_density f : good_mover mv ->
  idx_sum (size ys) (fun b0 bs => path_target w0 wt pp (y0 b0) (pick ys bs) * E (kern b0 bs) (fun r => f r.1 r.2))
  = idx_sum (size ys) (fun b0 bs => path_target w0 wt pp (y0 b0) (pick ys bs) * f (y0 b0 :: pick ys bs) (b0 :: bs)).
Proof.
move=> mv_good.
have pE x xs : path_target w0 wt pp x xs = path_target w0 (fun x x' p => wt x x' p.2) (zip ys pp) x xs.
  by rewrite /path_target log_path_zip.
under idx_sum_ext do rewrite pE; under [RHS]idx_sum_ext do rewrite pE.
apply: (@sweep_density X n' PP PP rs mv W0 Wt post wof Gam w0 (fun x x' p => wt x x' p.2)) => //.
by move=> _; apply: All2_self => // p y; have [d e] := GamE p; exists d.
Qed.

Lemma plain_density_error f c eps :
  (forall key w (g : 'I_n -> R), prob_vec w -> (forall k, `|g k| <= c) ->
     `|\sum_k w k * E (mv key w k) (fun r => g r.1) - \sum_k w k * g k| <= eps) ->
  (forall xs bs, `|f xs bs| <= c) ->
  `|idx_sum (size ys) (fun b0 bs => path_target w0 wt pp (y0 b0) (pick ys bs) * E (kern b0 bs) (fun r => f r.1 r.2))
    - idx_sum (size ys) (fun b0 bs => path_target w0 wt pp (y0 b0) (pick ys bs) * f (y0 b0 :: pick ys bs) (b0 :: bs))|
  <= idx_sum (size ys) (fun b0 bs => path_target w0 wt pp (y0 b0) (pick ys bs) * eps).
Proof.
move=> mvb fc.
have pE x xs : path_target w0 wt pp x xs = path_target w0 (fun x x' p => wt x x' p.2) (zip ys pp) x xs.
  by rewrite /path_target log_path_zip.
under idx_sum_ext do rewrite pE; under [X in _ - X]idx_sum_ext do rewrite pE.
under [X in _ <= X]idx_sum_ext do rewrite pE.
apply: (@sweep_density_error X n' PP PP rs mv W0 Wt post wof Gam w0 (fun x x' p => wt x x' p.2) _ _ _ _ _ _ _ _ _ _ _ _ c) => //.
by move=> _; apply: All2_self => // p y; have [d e] := GamE p; exists d.
Qed.

End Plain.

(** *** rw_csmc.py *)
Section Rw.
Variable nl : setting -> X -> R.
Hypothesis even : forall s z, nl s (- z) = nl s z.
Local Notation dens := (aux_density nl (fun _ _ => 0) (fun _ _ _ (_ : Q) => 0)).

Lemma rw_ref s u (y : pop) b : given_ref (nl s) (y b + 0) u y b = \sum_i nl s (y i - u).
Proof. by rewrite /given_ref addr0 -even opprB [RHS](bigD1 b). Qed.

Lemma rw_aux_log xm xm' (ys : seq pop) bs bs' us ss qs : size bs = size bs' ->
  aux_log nl (fun _ _ _ (_ : Q) => 0) xm ys bs us ss qs
  = aux_log nl (fun _ _ _ (_ : Q) => 0) xm' ys bs' us ss qs :> R.
Proof.
elim: ys xm xm' bs bs' us ss qs => [|y ys IH] xm xm' [|b bs] [|b' bs'] [|u us] [|s ss] [|q qs] //= [sz].
by rewrite !rw_ref (IH _ (y b') _ bs').
Qed.

Lemma rw_joint u0 us s0 ss qs (y0 : pop) (ys : seq pop) : exists2 K : R, 0 <= K &
  forall b0 bs, size bs = size ys ->
  path_target G0 Gt qs (y0 b0) (pick ys bs) * dens u0 us s0 ss qs y0 ys b0 bs
  = K * path_target G0 Gt qs (y0 b0) (pick ys bs).
Proof.
exists (dens u0 us s0 ss qs y0 ys ord0 (nseq (size ys) ord0)); first exact/ltW/expR_gt0.
move=> b0 bs sz; rewrite mulrC; congr (_ * _); rewrite /aux_density !rw_ref; congr (exp (_ + _)).
by apply: rw_aux_log; rewrite size_nseq.
Qed.

Section Kern.
Variables (key : key) (u0 : X) (us : seq X) (s0 : setting) (ss : seq setting) (y0 : pop) (ys : seq pop) (qs : seq Q).
Variable backward : bool.
Hypothesis sz : size qs = size ys.
Local Notation joint b0 bs := (path_target G0 Gt qs (y0 b0) (pick ys bs) * dens u0 us s0 ss qs y0 ys b0 bs).
Local Notation kern b0 bs := (drop_weights (rw_sweep G0 Gt rs mv key b0 bs y0 ys qs backward)).

Theorem rw_density f : good_mover mv ->
  idx_sum (size ys) (fun b0 bs => joint b0 bs * E (kern b0 bs) (fun r => f r.1 r.2))
  = idx_sum (size ys) (fun b0 bs => joint b0 bs * f (y0 b0 :: pick ys bs) (b0 :: bs)).
Proof.
move=> mv_good; have [K K0 HK] := rw_joint u0 us s0 ss qs y0 ys; apply: (idx_transfer HK).
apply: plain_density => //; [exact: normalize_log_shift|exact: exp_normalize_log|].
by move=> p; exists (fun=> 0) => x x'; rewrite addr0.
Qed.

Theorem rw_density_error f c eps :
  (forall key w (g : 'I_n -> R), prob_vec w -> (forall k, `|g k| <= c) ->
     `|\sum_k w k * E (mv key w k) (fun r => g r.1) - \sum_k w k * g k| <= eps) ->
  (forall xs bs, `|f xs bs| <= c) ->
  `|idx_sum (size ys) (fun b0 bs => joint b0 bs * E (kern b0 bs) (fun r => f r.1 r.2))
    - idx_sum (size ys) (fun b0 bs => joint b0 bs * f (y0 b0 :: pick ys bs) (b0 :: bs))|
  <= idx_sum (size ys) (fun b0 bs => joint b0 bs * eps).
Proof.
move=> mvb fc; have [K K0 HK] := rw_joint u0 us s0 ss qs y0 ys; apply: (idx_transfer_error K0 HK).
apply: (plain_density_error _ _ _ _ _ _ _ _ mvb fc) => //; [exact: normalize_log_shift|exact: exp_normalize_log|].
by move=> p; exists (fun=> 0) => x x'; rewrite addr0.
Qed.

End Kern.
End Rw.

(** *** al_csmc_f.py *)
Section Al.
Variable nl : setting -> X -> R.
Hypothesis nlE : forall s, exists c, forall z, nl s z = ld s z + c.
Local Notation dens := (aux_density nl (fun x s => scale s (g0 x)) (fun x x' s q => scale s (gt x x' q))).
Local Notation aGt := (al_Gamma_t_tilde ld scale Gt gt).
Local Notation aG0 s0 u0 := (fun x => al_Gamma_0_tilde ld scale G0 g0 s0 u0 x - ld s0 (x - u0)).
Local Notation aw := (fun x x' (p : setting * X * Q) => aGt x x' p - ld p.1.1 (x' - p.1.2)).

Lemma al_ref s m u (y : pop) b :
  given_ref (nl s) m u y b = ld s (u - m) - ld s (y b - u) + \sum_i nl s (y i - u).
Proof.
rewrite /given_ref [in RHS](bigD1 b) //=; have [c e] := nlE s; rewrite !e.
by rewrite [RHS]addrA; congr (_ + _); rewrite [RHS]addrA subrK.
Qed.

Fixpoint al_const (ys : seq pop) (us : seq X) (ss : seq setting) : R :=
  match ys, us, ss with
  | y :: ys', u :: us', s :: ss' => \sum_i nl s (y i - u) + al_const ys' us' ss'
  | _, _, _ => 0
  end.

Lemma al_log xm (ys : seq pop) bs us ss qs :
  size bs = size ys -> size us = size ys -> size ss = size ys -> size qs = size ys ->
  log_path Gt xm (pick ys bs) qs + aux_log nl (fun x x' s q => scale s (gt x x' q)) xm ys bs us ss qs
  = al_const ys us ss + log_path aw xm (pick ys bs) (zip (zip ss us) qs).
Proof.
elim: ys xm bs us ss qs => [|y ys IH] xm [|b bs] [|u us] [|s ss] [|q qs] //=.
move=> [s1] [s2] [s3] [s4]; rewrite al_ref.
have := IH (y b) bs us ss qs s1 s2 s3 s4; rewrite /al_Gamma_t_tilde [in ld s (u - (_ + _))]opprD [u + _]addrA.
move: (log_path _ _ _ _) (log_path Gt _ _ _) (aux_log _ _ _ _ _ _ _ _) (al_const _ _ _) => l1 l2 l3 l4.
by move: (ld _ _) (ld _ _) (\sum_i _) (Gt _ _ _); clear; move=> *; toR; lra.
Qed.

Lemma al_joint u0 us s0 ss qs (y0 : pop) (ys : seq pop) :
  size us = size ys -> size ss = size ys -> size qs = size ys ->
  exists2 K : R, 0 <= K & forall b0 bs, size bs = size ys ->
  path_target G0 Gt qs (y0 b0) (pick ys bs) * dens u0 us s0 ss qs y0 ys b0 bs
  = K * path_target (aG0 s0 u0) aw (zip (zip ss us) qs) (y0 b0) (pick ys bs).
Proof.
move=> s2 s3 s4; exists (exp (\sum_i nl s0 (y0 i - u0) + al_const ys us ss)); first exact/ltW/expR_gt0.
move=> b0 bs s1; rewrite /path_target /aux_density -!expRD; congr exp.
rewrite al_ref /al_Gamma_0_tilde opprD [u0 + _]addrA.
have := al_log (y0 b0) s1 s2 s3 s4.
move: (log_path _ _ _ _) (log_path Gt _ _ _) (aux_log _ _ _ _ _ _ _ _) (al_const _ _ _) => a b c d.
move: (ld _ _) (ld _ _) (\sum_i _) (G0 _); clear; move=> *; toR; lra.
Qed.

Lemma al_sweep_size (us : seq X) (ss : seq setting) (qs : seq Q) (ys : seq pop) : size us = size ys -> size ss = size ys -> size qs = size ys ->
  size (zip (zip ss us) qs) = size ys.
Proof. by move=> s2 s3 s4; rewrite !size_zip s2 s3 s4 !minnn. Qed.

Section Kern.
Variables (key : key) (u0 : X) (us : seq X) (s0 : setting) (ss : seq setting) (y0 : pop) (ys : seq pop) (qs : seq Q).
Variable backward : bool.
Hypotheses (s2 : size us = size ys) (s3 : size ss = size ys) (s4 : size qs = size ys).
Local Notation pp := (zip (zip ss us) qs).
Local Notation sz := (al_sweep_size s2 s3 s4).
Local Notation joint b0 bs := (path_target G0 Gt qs (y0 b0) (pick ys bs) * dens u0 us s0 ss qs y0 ys b0 bs).
Local Notation kern b0 bs :=
  (drop_weights (al_sweep ld scale G0 Gt g0 gt rs mv key b0 bs y0 ys u0 us s0 ss qs backward)).

Theorem al_density f : good_mover mv ->
  idx_sum (size ys) (fun b0 bs => joint b0 bs * E (kern b0 bs) (fun r => f r.1 r.2))
  = idx_sum (size ys) (fun b0 bs => joint b0 bs * f (y0 b0 :: pick ys bs) (b0 :: bs)).
Proof.
move=> mv_good; have [K K0 HK] := al_joint u0 s0 y0 s2 s3 s4; apply: (idx_transfer HK).
apply: plain_density => //; [exact: minus_max_shift| |exact: sz].
by move=> q; exists (fun x' => - ld q.1.1 (x' - q.1.2)) => x x'.
Qed.

Theorem al_density_error f c eps :
  (forall key w (g : 'I_n -> R), prob_vec w -> (forall k, `|g k| <= c) ->
     `|\sum_k w k * E (mv key w k) (fun r => g r.1) - \sum_k w k * g k| <= eps) ->
  (forall xs bs, `|f xs bs| <= c) ->
  `|idx_sum (size ys) (fun b0 bs => joint b0 bs * E (kern b0 bs) (fun r => f r.1 r.2))
    - idx_sum (size ys) (fun b0 bs => joint b0 bs * f (y0 b0 :: pick ys bs) (b0 :: bs))|
  <= idx_sum (size ys) (fun b0 bs => joint b0 bs * eps).
Proof.
move=> mvb fc; have [K K0 HK] := al_joint u0 s0 y0 s2 s3 s4; apply: (idx_transfer_error K0 HK).
apply: (plain_density_error _ _ _ _ _ _ _ _ mvb fc) => //; [exact: minus_max_shift| |exact: sz].
by move=> q; exists (fun x' => - ld q.1.1 (x' - q.1.2)) => x x'.
Qed.

End Kern.
End Al.

(** *** l_csmc_f.py *)
Section L.
Variables (nl : setting -> X -> R) (I : (X -> R) -> R) (good : setting -> Prop).
Hypothesis margE : forall s (y : pop), good s -> exists c : R, forall b phi,
  I (fun u => exp (given_ref (nl s) (y b + phi) u y b)) = c * exp (logH s y phi (y b)).
Local Notation dens := (marg_density nl (fun x s => scale s (g0 x)) (fun x x' s q => scale s (gt x x' q)) I).
Local Notation lw0 s0 y0 := (fun x => G0 x + logH s0 y0 (scale s0 (g0 x)) x).
Local Notation lw := (fun x x' (p : pop * (setting * Q)) => Gt x x' p.2.2 + logH p.2.1 p.1 (scale p.2.1 (gt x x' p.2.2)) x').

Lemma l_log (ys : seq pop) ss qs : size ss = size ys -> size qs = size ys -> (forall s, List.In s ss -> good s) ->
  exists K : R, forall xm bs, size bs = size ys ->
  exp (log_path Gt xm (pick ys bs) qs) * marg_prod nl (fun x x' s q => scale s (gt x x' q)) I xm ys bs ss qs
  = K * exp (log_path lw xm (pick ys bs) (zip ys (zip ss qs))).
Proof.
elim: ys ss qs => [|y ys IH] [|s ss] [|q qs] //=; first by exists 1 => xm [] //= _; rewrite !exp_0.
move=> [s3] [s4] gs; have [K HK] := IH ss qs s3 s4 (fun t tin => gs t (or_intror tin)).
have [c Hc] := margE y (gs s (or_introl erefl)).
exists (c * K) => xm [|b bs] //= [s1]; rewrite Hc !expRD.
have := HK (y b) bs s1; move: (exp (log_path Gt _ _ _)) (marg_prod _ _ _ _ _ _ _ _) => e m.
move: (exp (log_path _ _ _ _)) (exp (Gt _ _ _)) (exp (logH _ _ _ _)) => e1 e2 e3 h.
have -> : e2 * e * (c * e3 * m) = e2 * c * e3 * (e * m) by move: {Hc}c; clear; move=> *; toR; ring.
by rewrite h; move: {HK h}K {Hc}c; clear; move=> *; toR; ring.
Qed.

Lemma l_joint_dens s0 ss qs (y0 : pop) (ys : seq pop) :
  size ss = size ys -> size qs = size ys -> (forall s, List.In s (s0 :: ss) -> good s) ->
  exists K : R, forall b0 bs, size bs = size ys ->
  path_target G0 Gt qs (y0 b0) (pick ys bs) * dens s0 ss qs y0 ys b0 bs
  = K * path_target (lw0 s0 y0) lw (zip ys (zip ss qs)) (y0 b0) (pick ys bs).
Proof.
move=> s3 s4 gs; have [K HK] := l_log s3 s4 (fun t tin => gs t (or_intror tin)).
have [c Hc] := margE y0 (gs s0 (or_introl erefl)).
exists (c * K) => b0 bs s1; rewrite /path_target /marg_density Hc !expRD.
have := HK (y0 b0) bs s1; move: (exp (log_path Gt _ _ _)) (marg_prod _ _ _ _ _ _ _ _) => e m.
move: (exp (log_path _ _ _ _)) (exp (G0 _)) (exp (logH _ _ _ _)) => e1 e2 e3 h.
have -> : e2 * e * (c * e3 * m) = e2 * c * e3 * (e * m) by move: {Hc}c; clear; move=> *; toR; ring.
by rewrite h; move: {HK h}K {Hc}c; clear; move=> *; toR; ring.
Qed.

Lemma l_shiftable (ys : seq pop) ss qs : size ss = size ys -> size qs = size ys ->
  (forall x y x' q, gt x x' q = gt y x' q) ->
  All2 (fun q yp => exists d, forall x x', lw x x' yp = Gt x x' q + d x') qs (zip ys (zip ss qs)).
Proof.
move=> s3 s4 gE; elim: ys ss qs s3 s4 => [|y ys IH] [|s ss] [|q qs] //= [t3] [t4]; split; last exact: IH.
by exists (fun x' => logH s y (scale s (gt x' x' q)) x') => x x' /=; rewrite (gE x x').
Qed.

Section Kern.
Variables (key : key) (s0 : setting) (ss : seq setting) (y0 : pop) (ys : seq pop) (qs : seq Q).
Variable backward : bool.
Hypotheses (s3 : size ss = size ys) (s4 : size qs = size ys) (gs : forall s, List.In s (s0 :: ss) -> good s).
(** With backward sampling, gradients must not depend on the previous state. *)
Hypothesis bwd : backward -> forall x y x' q, gt x x' q = gt y x' q.
Local Notation joint b0 bs := (path_target G0 Gt qs (y0 b0) (pick ys bs) * dens s0 ss qs y0 ys b0 bs).
Local Notation kern b0 bs :=
  (drop_weights (l_sweep scale logH G0 Gt g0 gt rs mv key b0 bs y0 ys s0 ss qs backward)).

Theorem l_density f : good_mover mv ->
  idx_sum (size ys) (fun b0 bs => joint b0 bs * E (kern b0 bs) (fun r => f r.1 r.2))
  = idx_sum (size ys) (fun b0 bs => joint b0 bs * f (y0 b0 :: pick ys bs) (b0 :: bs)).
Proof.
move=> mv_good; have [K HK] := l_joint_dens y0 s3 s4 gs; apply: (idx_transfer HK).
apply: (@sweep_density X n' (setting * Q) Q rs mv (l_Gamma_0_tilde scale logH G0 g0 s0) (l_Gamma_t_tilde scale logH Gt gt)
  (@minus_max n') (@normalize n) Gt (lw0 s0 y0) lw y0) => //; first exact: minus_max_shift.
  by rewrite size_zip s3 s4 minnn.
by move=> /bwd gE; apply: l_shiftable.
Qed.

Theorem l_density_error f c eps :
  (forall g, (forall u, 0 <= g u) -> 0 <= I g) ->
  (forall key w (g : 'I_n -> R), prob_vec w -> (forall k, `|g k| <= c) ->
     `|\sum_k w k * E (mv key w k) (fun r => g r.1) - \sum_k w k * g k| <= eps) ->
  (forall xs bs, `|f xs bs| <= c) ->
  `|idx_sum (size ys) (fun b0 bs => joint b0 bs * E (kern b0 bs) (fun r => f r.1 r.2))
    - idx_sum (size ys) (fun b0 bs => joint b0 bs * f (y0 b0 :: pick ys bs) (b0 :: bs))|
  <= idx_sum (size ys) (fun b0 bs => joint b0 bs * eps).
Proof.
move=> I0 mvb fc; have [K HK] := l_joint_dens y0 s3 s4 gs.
have mp0 xm zs bs tt rr : 0 <= marg_prod nl (fun x x' s q => scale s (gt x x' q)) I xm zs bs tt rr.
  elim: zs xm bs tt rr => [|z zs IH] xm [|b bs] [|t tt] [|r rr] //=; rewrite ?ler01 //.
  by apply: mulr_ge0 => //; apply: I0 => u; exact/ltW/expR_gt0.
have K0 : 0 <= K.
  have := HK ord0 (nseq (size ys) ord0) (size_nseq _ _) => e.
  have : 0 <= K * path_target (lw0 s0 y0) lw (zip ys (zip ss qs)) (y0 ord0) (pick ys (nseq (size ys) ord0)).
    rewrite -e; apply: mulr_ge0; first exact/ltW/expR_gt0.
    by apply: mulr_ge0 => //; apply: I0 => u; exact/ltW/expR_gt0.
  by rewrite pmulr_lge0 // expR_gt0.
apply: (idx_transfer_error K0 HK).
apply: (@sweep_density_error X n' (setting * Q) Q rs mv (l_Gamma_0_tilde scale logH G0 g0 s0) (l_Gamma_t_tilde scale logH Gt gt)
  (@minus_max n') (@normalize n) Gt (lw0 s0 y0) lw y0 _ _ _ _ _ _ _ _ _ _ _ c) => //; first exact: minus_max_shift.
  by rewrite size_zip s3 s4 minnn.
by move=> /bwd gE; apply: l_shiftable.
Qed.

End Kern.
End L.

End Instances.
