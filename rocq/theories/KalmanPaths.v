(** * KalmanPaths: whole trajectories (C38). *)
From Coq Require Import Reals Lra.
From mathcomp Require Import all_ssreflect all_algebra.
From Verif Require Import RInst Gauss GaussSpec GaussProofs MarginalProofs Kalman KalmanSpec CholProofs KalmanProofs.

Set Implicit Arguments.
Unset Strict Implicit.
Unset Printing Implicit Defensive.
Import GRing.Theory Num.Theory Order.TTheory.
Local Open Scope ring_scope.

Section Backward.
Variable dx : nat.
Local Notation vec := 'cV[R]_dx.
Local Notation mat := 'M[R]_dx.
(** Law of x_t given x_{t+1} and the filter [mp]. *)
Definition bwA (f : dyn dx) (mp : vec * mat) : mat := gain mp.2 (dQ f) (dF f).
Definition bwa f (mp : vec * mat) : vec := mp.1 - bwA f mp *m (dF f *m mp.1 + db f).
Definition bwC f (mp : vec * mat) : mat := post mp.2 (dQ f) (dF f).

Lemma bw_mean f mp x : mp.1 + bwA f mp *m (x - (dF f *m mp.1 + db f)) = bwA f mp *m x + bwa f mp.
Proof. by rewrite /bwa mulmxBr addrCA. Qed.

Lemma bw_exact f mp x x' : spd mp.2 -> spd (dQ f) ->
  gauss_logpdf mp.2 x mp.1 + gauss_logpdf (dQ f) x' (dF f *m x + db f) =
  gauss_logpdf (innov mp.2 (dQ f) (dF f)) x' (dF f *m mp.1 + db f) + gauss_logpdf (bwC f mp) x (bwA f mp *m x' + bwa f mp).
Proof. by move=> hP hQ; rewrite update_exact // -bw_mean. Qed.

Lemma sampling_bodyE x e mp f : spd mp.2 -> spd (dQ f) ->
  sampling_body x (e, mp, f) = let x' := bwA f mp *m x + bwa f mp + cholesky (bwC f mp) *m e in (x', x').
Proof. by case: mp => m P hP hQ; rewrite /sampling_body sequential_updateE // -bw_mean. Qed.

Lemma smoothing_bodyE m' P' mp f : spd mp.2 -> spd (dQ f) ->
  smoothing_body (m', P') (mp, f) =
  let r := (bwA f mp *m m' + bwa f mp, bwA f mp *m P' *m (bwA f mp)^T + bwC f mp) in (r, r).
Proof.
case: mp => m P /= hP hQ; rewrite /smoothing_body [dF f *m P *m _ + _]addrC -/(innov P (dQ f) (dF f)).
have -> : P *m (invmx (innov P (dQ f) (dF f)) *m dF f)^T = bwA f (m, P).
  have [sS _] := innov_spd (dF f) hP hQ.
  by rewrite /bwA /gain /= trmx_mul (sym_inv sS) mulmxA.
rewrite [db f + _]addrC (bw_mean f (m, P)) /=.
suff e : P + bwA f (m, P) *m (P' - innov P (dQ f) (dF f)) *m (bwA f (m, P))^T =
    bwA f (m, P) *m P' *m (bwA f (m, P))^T + bwC f (m, P) by rewrite e.
by rewrite /bwC /post -/(bwA f (m, P)) mulmxBr mulmxBl addrCA.
Qed.
End Backward.

Lemma filter_consE dx dy m P ell (f : dyn dx) (o : obs dx dy) ins : spd P -> spd (dQ f) -> spd (oR o) ->
  let P1 := innov P (dQ f) (dF f) in
  let m1 := dF f *m m + db f in
  let m2 := m1 + gain P1 (oR o) (oH o) *m (oy o - (oH o *m m1 + oc o)) in
  let P2 := post P1 (oR o) (oH o) in
  let r := filter_scan m2 P2 (ell + gauss_logpdf (innov P1 (oR o) (oH o)) (oy o) (oH o *m m1 + oc o)) ins in
  filter_scan m P ell ((f, o) :: ins) = ((m2, P2) :: r.1, r.2).
Proof.
move=> hP hQ hR P1 m1 m2 P2 r.
transitivity (let: (m, P, inc) := sequential_predict_update m P (dF f) (db f) (dQ f) (oy o) (oH o) (oc o) (oR o) in
  let: (out, ell) := filter_scan m P (ell + inc) ins in ((m, P) :: out, ell)); first by [].
rewrite /sequential_predict_update sequential_predictE // sequential_updateE //; last exact: innov_spd.
by rewrite -/P1 -/m1 -/m2 -/P2 -/r; case: (r).
Qed.

Section Filter.
Variables (dx dy : nat) (F Q : nat -> 'M[R]_dx) (b : nat -> 'cV[R]_dx).
Variables (H : nat -> 'M[R]_(dy, dx)) (Rc : nat -> 'M[R]_dy) (c y : nat -> 'cV[R]_dy).
Hypotheses (hQ : forall t, spd (Q t)) (hR : forall t, spd (Rc t)).
Definition dyn_at t := Dyn (F t) (Q t) (b t).
Definition obs_at t := Obs (H t) (Rc t) (c t) (y t).

Lemma filter_scanE n s m P ell : spd P ->
  let r := filter_scan m P ell [seq (dyn_at t, obs_at t.+1) | t <- iota s n] in
  let mp t := nth (0, 0) ((m, P) :: r.1) t in
  [/\ size r.1 = n, forall t, (t <= n)%N -> spd (mp t).2 & forall x : nat -> 'cV[R]_dx,
   gauss_logpdf P (x s) m + \sum_(t < n) gauss_logpdf (Q (s + t)%N) (x (s + t).+1) (F (s + t)%N *m x (s + t)%N + b (s + t)%N)
   + \sum_(t < n) gauss_logpdf (Rc (s + t).+1) (y (s + t).+1) (H (s + t).+1 *m x (s + t).+1 + c (s + t).+1)
   = r.2 - ell + gauss_logpdf (mp n).2 (x (s + n)%N) (mp n).1
     + \sum_(t < n) gauss_logpdf (bwC (dyn_at (s + t)) (mp t)) (x (s + t)%N)
          (bwA (dyn_at (s + t)) (mp t) *m x (s + t).+1 + bwa (dyn_at (s + t)) (mp t))].
Proof.
elim: n s m P ell => [|n IH] s m P ell hP.
  rewrite /=; split=> // [[|t]//|x]; rewrite !big_ord0 addn0 subrr add0r !addr0 //.
rewrite [iota s n.+1]/= [map _ (s :: _)]/= filter_consE //=.
set P1 := innov P (Q s) (F s); set m1 := F s *m m + b s.
set m2 := m1 + _; set P2 := post _ _ _; set inc := gauss_logpdf _ (y s.+1) _.
have hP1 : spd P1 by exact: innov_spd.
have hP2 : spd P2 by exact: post_spd.
have := IH s.+1 m2 P2 (ell + inc) hP2.
case: (filter_scan _ _ _ _) => out ell' /= [sz hs eq]; split; first by rewrite sz.
  by case=> [|t] //=; rewrite ltnS => /hs.
move=> x; have := eq x; rewrite !big_ord_recl !addn0 /=.
have -> : (s.+1 + n = s + n.+1)%N by rewrite addSnnS.
have sh G : \sum_(i < n) G (s.+1 + i)%N = \sum_(i < n) G (s + bump 0 i)%N :> R.
  by apply: eq_bigr => i _; rewrite /bump leq0n add1n addSnnS.
rewrite (sh (fun t => gauss_logpdf (Q t) (x t.+1) (F t *m x t + b t))).
rewrite (sh (fun t => gauss_logpdf (Rc t.+1) (y t.+1) (H t.+1 *m x t.+1 + c t.+1))).
set A := \sum_(i < n) gauss_logpdf (Q _) _ _; set B := \sum_(i < n) gauss_logpdf (Rc _) _ _.
set C := \sum_(i < n) gauss_logpdf (bwC _ _) _ _; set C' := \sum_(i < n) gauss_logpdf (bwC _ _) _ _.
have -> : C = C' by apply: eq_bigr => i _; rewrite /bump leq0n add1n addSnnS.
have e1 := bw_exact (f := dyn_at s) (mp := (m, P)) (x s) (x s.+1) hP (hQ s).
have e2 := update_exact (H s.+1) hP1 (hR s.+1) m1 (x s.+1) (y s.+1) (c s.+1).
move: e1 e2; rewrite /= -/P1 -/m1 -/P2 -/m2 -/inc.
move: (gauss_logpdf _ _ _) (gauss_logpdf _ _ _) (gauss_logpdf _ _ _) (gauss_logpdf _ _ _) (gauss_logpdf _ _ _) (gauss_logpdf _ _ _) (gauss_logpdf _ _ _).
by move=> *; toR; lra.
Qed.
End Filter.

Lemma scan_reverseE (C I : Type) (body : C -> I -> C * C) c ins (d : C) (i0 : I) :
  (forall c i, (body c i).2 = (body c i).1) ->
  let os := rcons (scan_reverse body c ins).2 c in
  [/\ size os = (size ins).+1, (scan_reverse body c ins).1 = nth d os 0, nth d os (size ins) = c
    & forall t, (t < size ins)%N -> nth d os t = (body (nth d os t.+1) (nth i0 ins t)).1].
Proof.
move=> same; elim: ins => [|i ins IH] //=.
case: (scan_reverse body c ins) IH => c' os /= [sz h0 hn h].
have := same c' i; case e : (body c' i) => [c'' o] /= oc.
split=> //=; first by rewrite sz.
by case=> [|t] //= lt; [rewrite -h0 e|exact: h].
Qed.

Section Sampler.
Variables (dx T : nat) (F Q : nat -> 'M[R]_dx) (b : nat -> 'cV[R]_dx) (mp : nat -> 'cV[R]_dx * 'M[R]_dx).
Hypotheses (hQ : forall t, spd (Q t)) (hP : forall t, (t <= T)%N -> spd (mp t).2).
Local Notation f t := (dyn_at F Q b t).
Local Notation fs := [seq f t | t <- iota 0 T].

Lemma zip_iota (A B : Type) (g : nat -> A) (h : nat -> B) s n :
  zip [seq g t | t <- iota s n] [seq h t | t <- iota s n] = [seq (g t, h t) | t <- iota s n].
Proof. by elim: n s => //= n IH s; rewrite IH. Qed.

Lemma take_mkseq (A : Type) (g : nat -> A) n : take n (mkseq g n.+1) = [seq g t | t <- iota 0 n].
Proof. by rewrite /mkseq -addn1 iotaD map_cat take_size_cat // size_map size_iota. Qed.

Lemma last_mkseq (A : Type) (d : A) (g : nat -> A) n : last d (mkseq g n.+1) = g n.
Proof. by rewrite -nth_last size_mkseq nth_mkseq. Qed.

Lemma behead_mkseq (A : Type) (g : nat -> A) n : behead (mkseq g n.+1) = [seq g t.+1 | t <- iota 0 n].
Proof. by rewrite /mkseq /= (iotaDl 1 0) -map_comp. Qed.

Lemma samplingE (eps : nat -> 'cV[R]_dx) :
  let s := sampling (mkseq eps T.+1) (mkseq mp T.+1) fs in
  [/\ size s = T.+1, nth 0 s T = (mp T).1 + cholesky (mp T).2 *m eps 0%N
    & forall t, (t < T)%N -> nth 0 s t = bwA (f t) (mp t) *m nth 0 s t.+1 + bwa (f t) (mp t) + cholesky (bwC (f t) (mp t)) *m eps t.+1].
Proof.
rewrite /sampling last_mkseq size_mkseq take_mkseq behead_mkseq !zip_iota [head _ _]/=.
case e : (mp T) => [m P] /=; set xT := m + _; set ins := [seq _ | _ <- _].
have same : forall c i, (@sampling_body dx c i).2 = (sampling_body c i).1.
  by move=> c [[e' [m' P']] f']; rewrite /sampling_body; case: (sequential_update _ _ _ _ _ _) => -[].
have := @scan_reverseE _ _ (@sampling_body dx) xT ins 0 (0, (0, 0), f 0) same.
case: (scan_reverse _ _ _) => xf os /= [sz _ hT h]; rewrite size_map size_iota in sz hT h.
split=> // t lt; rewrite (h t lt) (nth_map 0%N) ?size_iota // nth_iota // add0n sampling_bodyE //=; exact: hP (ltnW lt).
Qed.

Lemma smoothingE :
  let s := smoothing (mkseq mp T.+1) fs in
  [/\ size s = T.+1, nth (0, 0) s T = mp T
    & forall t, (t < T)%N ->
      nth (0, 0) s t = (bwA (f t) (mp t) *m (nth (0, 0) s t.+1).1 + bwa (f t) (mp t),
                        bwA (f t) (mp t) *m (nth (0, 0) s t.+1).2 *m (bwA (f t) (mp t))^T + bwC (f t) (mp t))].
Proof.
rewrite /smoothing last_mkseq size_mkseq take_mkseq zip_iota.
set ins := [seq _ | _ <- _].
have same : forall c i, (@smoothing_body dx c i).2 = (smoothing_body c i).1 by move=> [m P] [[m' P'] f'].
have := @scan_reverseE _ _ (@smoothing_body dx) (mp T) ins (0, 0) ((0, 0), f 0) same.
case: (scan_reverse _ _ _) => xf os /= [sz _ hT h]; rewrite size_map size_iota in sz hT h.
split=> // t lt; rewrite (h t lt) (nth_map 0%N) ?size_iota // nth_iota // add0n.
case: (nth _ _ t.+1) => m' P'; rewrite smoothing_bodyE //=; exact: hP (ltnW lt).
Qed.

Lemma prior_samplingE m0 P0 (eps : nat -> 'cV[R]_dx) :
  let s := prior_sampling (mkseq eps T.+1) m0 P0 fs in
  [/\ size s = T.+1, nth 0 s 0 = m0 + cholesky P0 *m eps 0%N
    & forall t, (t < T)%N -> nth 0 s t.+1 = F t *m nth 0 s t + b t + cholesky (Q t) *m eps t.+1].
Proof.
rewrite /prior_sampling behead_mkseq zip_iota [head _ _]/=; set x0 := m0 + _.
suff H s n x : let o := prior_scan x [seq (eps t.+1, f t) | t <- iota s n] in
    size o = n /\ forall t, (t < n)%N -> nth 0 o t = F (s + t)%N *m nth 0 (x :: o) t + b (s + t)%N + cholesky (Q (s + t)%N) *m eps (s + t).+1.
  by have [sz h] := H 0%N T x0; split=> //=; rewrite sz.
elim: n s x => [|n IH] s x //=.
have [sz h] := IH s.+1 (F s *m x + b s + cholesky (Q s) *m eps s.+1).
by split=> [|[|t] lt] /=; rewrite ?sz ?addn0 // h // addSnnS.
Qed.
End Sampler.

Lemma draw_density d (C : 'M[R]_d) m e : spd C ->
  gauss_logpdf C (m + cholesky C *m e) m = std_logpdf e - ln (\det C) / 2%:R.
Proof.
move=> hC; have [tr dg fac] := cholesky_ok hC.
have Lu : cholesky C \in unitmx by apply: trig_unit => // i; rewrite gt_eqF.
rewrite /std_logpdf /gauss_logpdf /gauss_kernel [m + _]addrC addrK subr0 -{1}fac quad_factor // mulKmx //.
have -> : quad (invmx 1%:M) e = sqn e by rewrite quadE invmx1 mul1mx sqnE.
have -> : ln (\det (1%:M : 'M[R]_d)) = 0 by rewrite det1; exact: ln_1.
by move: (sqn e) (ln _) (d%:R * _) => q l c; toR; lra.
Qed.

Section Posterior.
Variables (dx dy T : nat) (m0 : 'cV[R]_dx) (P0 : 'M[R]_dx) (F Q : nat -> 'M[R]_dx) (b : nat -> 'cV[R]_dx).
Variables (H : nat -> 'M[R]_(dy, dx)) (Rc : nat -> 'M[R]_dy) (c y : nat -> 'cV[R]_dy).
Hypotheses (hP : spd P0) (hQ : forall t, spd (Q t)) (hR : forall t, spd (Rc t)).
Local Notation fs := [seq Dyn (F t) (Q t) (b t) | t <- iota 0 T].
Local Notation os first := [seq Obs (H t) (Rc t) (c t) (y t) | t <- iota first (T.+1 - first)].

Definition exact_at (first : nat) (r : seq ('cV[R]_dx * 'M[R]_dx) * R) : Prop :=
  let mp t := nth (0, 0) r.1 t in
  [/\ size r.1 = T.+1, forall t, (t <= T)%N -> spd (mp t).2 & forall x,
   chain_logpdf T m0 P0 F Q b x + obs_logpdf T H Rc c y first x
   = r.2 + gauss_logpdf (mp T).2 (x T) (mp T).1
     + \sum_(t < T) gauss_logpdf (bwC (dyn_at F Q b t) (mp t)) (x t) (bwA (dyn_at F Q b t) (mp t) *m x t.+1 + bwa (dyn_at F Q b t) (mp t))].

Lemma tail1 x : \sum_(t < T) gauss_logpdf (Rc t.+1) (y t.+1) (H t.+1 *m x t.+1 + c t.+1) = obs_logpdf T H Rc c y 1 x.
Proof. by rewrite /obs_logpdf big_add1 /= big_mkord. Qed.

Lemma tail0 x : obs_logpdf T H Rc c y 0 x = gauss_logpdf (Rc 0%N) (y 0%N) (H 0%N *m x 0%N + c 0%N) + obs_logpdf T H Rc c y 1 x.
Proof. by rewrite -tail1 /obs_logpdf big_nat_recl // big_mkord. Qed.

Lemma filter_scan0 ell m P : spd P ->
  let r := filter_scan m P ell [seq (dyn_at F Q b t, obs_at H Rc c y t.+1) | t <- iota 0 T] in
  let mp t := nth (0, 0) ((m, P) :: r.1) t in
  [/\ size r.1 = T, forall t, (t <= T)%N -> spd (mp t).2 & forall x : nat -> 'cV[R]_dx,
   gauss_logpdf P (x 0%N) m + \sum_(t < T) gauss_logpdf (Q t) (x t.+1) (F t *m x t + b t) + obs_logpdf T H Rc c y 1 x
   = r.2 - ell + gauss_logpdf (mp T).2 (x T) (mp T).1
     + \sum_(t < T) gauss_logpdf (bwC (dyn_at F Q b t) (mp t)) (x t)
          (bwA (dyn_at F Q b t) (mp t) *m x t.+1 + bwa (dyn_at F Q b t) (mp t))].
Proof.
move=> h; have [sz hs eq] := filter_scanE F b H c y hQ hR T 0 m ell h.
by split=> // x; rewrite -tail1; exact: eq.
Qed.

Lemma filtering_exact first : (first <= 1)%N -> exact_at first (filtering (os first) m0 P0 fs).
Proof.
have zipE : zip fs [seq Obs (H t) (Rc t) (c t) (y t) | t <- iota 1 T] = [seq (dyn_at F Q b t, obs_at H Rc c y t.+1) | t <- iota 0 T].
  by rewrite (iotaDl 1 0) -map_comp zip_iota.
case: first => [|[|//]] _.
- rewrite subn0; have -> : filtering (os 0) m0 P0 fs =
    let: (m, P, e) := sequential_update (y 0%N) m0 P0 (H 0%N) (c 0%N) (Rc 0%N) in
    let r := filter_scan m P e [seq (dyn_at F Q b t, obs_at H Rc c y t.+1) | t <- iota 0 T] in
    ((m, P) :: r.1, r.2).
    rewrite -zipE /filtering subn0 [iota 0 T.+1]/= [map _ (0%N :: _)]/= !size_map !size_iota.
    rewrite [size _]/= size_map size_iota eqxx.
    case: (sequential_update _ _ _ _ _ _) => -[m P] e /=; by case: (filter_scan _ _ _ _).
  rewrite sequential_updateE //=.
  set m := m0 + _; set P := post _ _ _; set e := gauss_logpdf _ _ _.
  have hP1 : spd P by exact: post_spd.
  have [sz hs eq] := filter_scan0 e m hP1.
  split=> //=; first by rewrite sz.
  move=> x; have := eq x; rewrite /chain_logpdf (tail0 x).
  have := update_exact (H 0%N) hP (hR 0%N) m0 (x 0%N) (y 0%N) (c 0%N); rewrite -/P -/m -/e.
  move: (gauss_logpdf _ _ _) (gauss_logpdf _ _ _) (gauss_logpdf _ _ _) (gauss_logpdf _ _ _) (obs_logpdf _ _ _ _ _ _ _).
  by move: (\sum_(t < T) _) (\sum_(t < T) _) => *; toR; lra.
- rewrite subn1 /=; have -> : filtering [seq Obs (H t) (Rc t) (c t) (y t) | t <- iota 1 T] m0 P0 fs =
    let r := filter_scan m0 P0 0 [seq (dyn_at F Q b t, obs_at H Rc c y t.+1) | t <- iota 0 T] in
    ((m0, P0) :: r.1, r.2).
    rewrite -zipE /filtering.
    have ne : (size [seq Obs (H t) (Rc t) (c t) (y t) | t <- iota 1 T] == (size fs).+1) = false.
      by rewrite !size_map !size_iota ltn_eqF.
    case: [seq Obs (H t) (Rc t) (c t) (y t) | t <- iota 1 T] ne => [|o os'] ne; rewrite ?ne /=; by case: (filter_scan _ _ _ _).
  have [sz hs eq] := filter_scan0 0 m0 hP.
  split=> //=; first by rewrite sz.
  by move=> x; have := eq x; rewrite subr0.
Qed.
End Posterior.

(** Filter, sampler and smoother together. *)
Lemma posterior_exact (dx dy T : nat) (m0 : 'cV[R]_dx) (P0 : 'M[R]_dx) (F Q : nat -> 'M[R]_dx) (b : nat -> 'cV[R]_dx)
    (H : nat -> 'M[R]_(dy, dx)) (Rc : nat -> 'M[R]_dy) (c y : nat -> 'cV[R]_dy) (first : nat) :
  spd P0 -> (forall t, spd (Q t)) -> (forall t, spd (Rc t)) -> (first <= 1)%N ->
  let fs := [seq Dyn (F t) (Q t) (b t) | t <- iota 0 T] in
  let os := [seq Obs (H t) (Rc t) (c t) (y t) | t <- iota first (T.+1 - first)] in
  let: (filt, ell) := filtering os m0 P0 fs in
  exists (A C : nat -> 'M[R]_dx) (a : nat -> 'cV[R]_dx),
  [/\ size filt = T.+1 /\ nth (0, 0) filt T = (a T, C T),
      forall t, (t <= T)%N -> spd (C t),
      forall x, chain_logpdf T m0 P0 F Q b x + obs_logpdf T H Rc c y first x
        = ell + gauss_logpdf (C T) (x T) (a T) + \sum_(t < T) gauss_logpdf (C t) (x t) (A t *m x t.+1 + a t),
      forall eps, let s := sampling (mkseq eps T.+1) filt fs in
        [/\ size s = T.+1, nth 0 s T = a T + cholesky (C T) *m eps 0%N
          & forall t, (t < T)%N -> nth 0 s t = A t *m nth 0 s t.+1 + a t + cholesky (C t) *m eps t.+1]
    & let s := smoothing filt fs in
        [/\ size s = T.+1, nth (0, 0) s T = (a T, C T)
          & forall t, (t < T)%N -> nth (0, 0) s t =
              (A t *m (nth (0, 0) s t.+1).1 + a t, A t *m (nth (0, 0) s t.+1).2 *m (A t)^T + C t)]].
Proof.
move=> hP hQ hR h1 fs os; have := filtering_exact T m0 F b H c y hP hQ hR h1; rewrite -/fs -/os.
case: (filtering os m0 P0 fs) => filt ell [/= sz hs eq].
pose mp t := nth (0, 0) filt t.
have fE : filt = mkseq mp T.+1.
  by apply: (@eq_from_nth _ (0, 0)); rewrite ?size_mkseq // sz => i lt; rewrite nth_mkseq.
pose f t := dyn_at F Q b t.
exists (fun t => bwA (f t) (mp t)), (fun t => if t == T then (mp T).2 else bwC (f t) (mp t)),
       (fun t => if t == T then (mp T).1 else bwa (f t) (mp t)).
have hs' : forall t, (t <= T)%N -> spd (mp t).2 by exact: hs.
rewrite eqxx; split.
- by rewrite sz /mp; case: (nth _ _ _).
- move=> t le; case: eqP => [_|_]; first exact: hs'.
  by apply: post_spd; [exact: hs'|exact: hQ].
- by move=> x; rewrite eq; congr (_ + _); apply: eq_bigr => t _; rewrite (ltn_eqF (ltn_ord t)).
- move=> eps; have [s1 s2 s3] := samplingE F b hQ hs' eps; rewrite -fE in s1 s2 s3.
  by split=> // t lt; rewrite (ltn_eqF lt); exact: s3.
- have [s1 s2 s3] := smoothingE F b hQ hs'; rewrite -fE in s1 s2 s3.
  split=> //; first by move: s2; case: (mp T).
  by move=> t lt; rewrite (ltn_eqF lt); exact: s3.
Qed.

(** Marginal and conditional of a pair. *)
Lemma pair_exact (dx dy : nat) (P : 'M[R]_dx) (Rc : 'M[R]_dy) (H : 'M[R]_(dy, dx)) (c : 'cV[R]_dy) (m : 'cV[R]_dx) (y : 'cV[R]_dy) :
  spd P -> spd Rc ->
  let: (m', P', ell) := sequential_update y m P H c Rc in
  spd P' /\ forall x, gauss_logpdf P x m + gauss_logpdf Rc y (H *m x + c) = ell + gauss_logpdf P' x m'.
Proof.
move=> hP hR; rewrite sequential_updateE //; split; first exact: post_spd.
by move=> x; exact: update_exact.
Qed.

Lemma predict_exact (dx : nat) (P Q F : 'M[R]_dx) (b m : 'cV[R]_dx) : spd P -> spd Q ->
  let: (m', P') := sequential_predict m P F b Q in
  spd P' /\ exists (A C : 'M[R]_dx) (a : 'cV[R]_dx), spd C /\ forall x x',
    gauss_logpdf P x m + gauss_logpdf Q x' (F *m x + b) = gauss_logpdf P' x' m' + gauss_logpdf C x (A *m x' + a).
Proof.
move=> hP hQ; rewrite sequential_predictE //; split; first exact: innov_spd.
pose f := Dyn F Q b; exists (bwA f (m, P)), (bwC f (m, P)), (bwa f (m, P)); split; first exact: post_spd.
by move=> x x'; exact: (bw_exact (f := f) (mp := (m, P))).
Qed.

(** Smoothing step: the pair (x_t, x_{t+1}) with x_{t+1} ~ N(m', P'). *)
Lemma smooth_exact (dx : nat) (A C P' : 'M[R]_dx) (a m' : 'cV[R]_dx) : spd P' -> spd C ->
  spd (A *m P' *m A^T + C) /\ exists (B D : 'M[R]_dx) (e : 'cV[R]_dx), spd D /\ forall x x',
    gauss_logpdf P' x' m' + gauss_logpdf C x (A *m x' + a) = gauss_logpdf (A *m P' *m A^T + C) x (A *m m' + a) + gauss_logpdf D x' (B *m x + e).
Proof.
move=> hP hC; rewrite addrC; split; first exact: spd_congr.
pose f := Dyn A C a; exists (bwA f (m', P')), (bwC f (m', P')), (bwa f (m', P')); split; first exact: post_spd.
by move=> x x'; rewrite (bw_exact (f := f) (mp := (m', P'))).
Qed.
