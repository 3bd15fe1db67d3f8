(** * DensityAux: the sweeps of rw_csmc.py, l_csmc_f.py and al_csmc_f.py given all particles,
    for any type of states. *)
From Coq Require Import Reals FunctionalExtensionality.
From mathcomp Require Import all_ssreflect all_algebra.
From Verif Require Import RInst Prog ProgTheory Resampling Spec ResamplingProofs.
From Verif Require Import KillingProofs MoveProofs ResamplingSpecs Csmc SmcTheory BackwardProofs.
From Verif Require Import CsmcInvariance CsmcProofs FrozenTheory DensitySpec DensityProofs AuxCsmc.

Set Implicit Arguments.
Unset Strict Implicit.
Unset Printing Implicit Defensive.
Import GRing.Theory Num.Theory Order.TTheory.
Local Open Scope ring_scope.

Section Shift.
Variables (X : Type) (n' : nat).
Local Notation n := n'.+1.

(** Backward weights do not see a term that depends on the later state only. *)
Lemma E_gbs_shift (bkey : nat -> key) (st st' : seq (gstep X n')) c h0 outs k f :
  All2 (fun s s' => exists d, forall x x', g_gam s' x x' = g_gam s x x' + d x') st st' ->
  E (gbs bkey st' c h0 outs k) f = E (gbs bkey st c h0 outs k) f.
Proof.
elim: st st' c outs k f => [|s st IH] [|s' st'] c outs k f //= [[d H] al].
case: outs => [|[[lw A] x] outs] //=; apply: eq_bigr => j _.
rewrite !E_bind (IH _ c.+1) //; congr (cat_law _ _ * _).
apply: functional_extensionality => i.
rewrite -(normalize_shift (fun i => g_gam s ((hlast (h0, outs)).2 i) (x k) + (hlast (h0, outs)).1 i) (d (x k))).
by apply: eq_normalize => l; rewrite H addrAC.
Qed.

End Shift.

Section Sweep.
Variables (X : Type) (n' : nat) (PP QQ : Type).
Local Notation n := n'.+1.
Local Notation pop := (pop X n').
Local Notation lwts := (lwts n').
Variables (rs : resampler n) (mv : mover n).
Variables (W0 : pop -> lwts) (Wt : pop -> pop -> PP -> lwts) (post : lwts -> lwts) (wof : lwts -> 'I_n -> R).
Variable Gam : X -> X -> QQ -> R.

(** The kernels after all their draws of noise. *)
Definition sweep (key : key) (b0 : 'I_n) (bs : seq 'I_n) (y0 : pop) (ys : seq pop) (pp : seq PP) (qq : seq QQ)
  (backward : bool) : prog (seq X * seq 'I_n * seq lwts) :=
  do o <- aux_forward rs W0 Wt post wof key b0 bs y0 ys pp;
  aux_backward mv Gam key (last b0 bs) qq backward o.

(** Log-weights as functions of a particle and its ancestor. *)
Variables (w0 : X -> R) (wt : X -> X -> pop * PP -> R).
Variables (y0 : pop).
Hypothesis W0E : forall i, W0 y0 i = w0 (y0 i).
Hypothesis WtE : forall xm xt p i, Wt xm xt p i = wt (xm i) (xt i) (xt, p).
Hypothesis postE : forall lw, exists k, forall i, post lw i = lw i - k.
Hypothesis wofE : forall lw, wof (post lw) = normalize (post lw).
Hypothesis rs_good : good_resampler rs.

Definition winit : ginit X n' := GInit (fun _ _ => Ret y0) (fun x0 => minus_max (W0 x0)) w0.

Definition wstep (key : key) (y : pop) (p : PP) : gstep X n' :=
  GStep (fun w k j => rs key w k j true) (fun _ _ _ => Ret y)
        (fun xm xt => post (Wt xm xt p)) (fun x x' => wt x x' (y, p)).

Lemma winit_ok : zinit_ok winit y0.
Proof.
exists (exp (amax (W0 y0))); split=> [|b F /=]; first exact/ltW/expR_gt0.
by rewrite /minus_max W0E -expRD addrC subrK.
Qed.

Lemma winit_proper b c : E (g0_prop winit b (y0 b)) (fun _ => c) = c.
Proof. by []. Qed.

Lemma wstep_ok key y p :
  [/\ rs_ok (wstep key y p), zprop_ok (wstep key y p, y) & zproper (wstep key y p, y)].
Proof.
split=> //; first by move=> w pw; exact: rs_good.
move=> xm; have [k kE] := postE (Wt xm y p); exists (exp k); split=> [|b F /=]; first exact/ltW/expR_gt0.
by rewrite kE WtE -expRD addrC subrK.
Qed.

Definition wsteps (ins : seq (sinp X n' PP)) : seq (gstep X n' * pop) :=
  [seq (wstep (s_key i) (s_x i) (s_p i), s_x i) | i <- ins].

Lemma wsteps_ok ins : zsteps_ok (rev (wsteps ins)) /\ zsteps_proper (rev (wsteps ins)).
Proof.
rewrite /wsteps -map_rev; elim: (rev ins) => [|i l [IH1 IH2]] //=.
by have [] := wstep_ok (s_key i) (s_x i) (s_p i).
Qed.

Lemma wins_gam pp ys b0 bs key c : size pp = size ys -> size bs = size ys ->
  [seq g_gam s.1 | s <- wsteps (sinputs pp ys b0 bs key c)]
  = [seq (fun x x' => wt x x' q) | q <- zip ys pp]
  /\ unzip2 (wsteps (sinputs pp ys b0 bs key c)) = ys.
Proof.
elim: ys pp b0 bs c => [|y ys IH] [|p pp] b0 [|b bs] c //= [s1] [s2].
have [-> u] := IH pp b bs c.+1 s1 s2; split=> //.
by move: u; rewrite /unzip2 /= => ->.
Qed.

Lemma wins_steps pp ys b0 bs key c b0' bs' : size pp = size ys -> size bs = size ys -> size bs' = size ys ->
  wsteps (sinputs pp ys b0 bs key c) = wsteps (sinputs pp ys b0' bs' key c).
Proof.
elim: ys pp b0 bs c b0' bs' => [|y ys IH] [|p pp] b0 [|b bs] c b0' [|b' bs'] //=.
by move=> [s1] [s2] [s3]; congr (_ :: _); apply: IH.
Qed.

Lemma wins_ref pp ys b0 bs key c : size pp = size ys -> size bs = size ys ->
  [seq (fun i : sinp X n' PP => (s_x i (s_b i), s_b i)) i | i <- sinputs pp ys b0 bs key c] = zip (pick ys bs) bs.
Proof. by elim: ys pp b0 bs c => [|y ys IH] [|p pp] b0 [|b bs] c //= [s1] [s2]; rewrite IH. Qed.

Lemma wins_chained pp ys b0 bs key c :
  chained (fun i : sinp X n' PP => (s_x i (s_b i), s_b i)) (@s_bm1 X n' PP) b0 (sinputs pp ys b0 bs key c).
Proof. by elim: ys pp b0 bs c => [|y ys IH] [|p pp] b0 [|b bs] c. Qed.

Lemma E_wforward key b0 bs ys pp z0 f : size pp = size ys -> size bs = size ys ->
  E (aux_forward rs W0 Wt post wof key b0 bs y0 ys pp) f
  = E (gfwd winit z0 (unzip1 (rev (wsteps (sinputs pp ys b0 bs key 3))))
          (rev (zip (y0 b0 :: pick ys bs) (b0 :: bs)))) (fun h => f (h.1, rev h.2)).
Proof.
move=> s1 s2; rewrite /aux_forward E_bind.
have := @E_scan_gfwd X n' winit z0 _ (aux_body rs Wt post wof)
  (fun i => wstep (s_key i) (s_x i) (s_p i)) (fun i => (s_x i (s_b i), s_b i)) (@s_bm1 X n' PP) _ (y0 b0, b0)
  (sinputs pp ys b0 bs key 3) (fun h0 _ outs => f (h0, outs)).
rewrite wins_ref // rev_unzip1 /wsteps /unzip1 -map_comp => <-.
- by rewrite /=; apply: eq_E => -[c o].
- move=> w x i g; rewrite /aux_body E_bind; apply: eq_E => A /=.
  by rewrite wofE.
- exact: wins_chained.
Qed.

Lemma E_sweep key b0 bs ys pp qq (backward : bool) z0 f :
  size pp = size ys -> size bs = size ys ->
  (backward -> All2 (fun q yp => exists d, forall x x', wt x x' yp = Gam x x' q + d x') qq (zip ys pp)) ->
  E (drop_weights (sweep key b0 bs y0 ys pp qq backward)) f
  = E (gkern winit z0 (fun c => split (split key 2) c) (gmv mv (mv_key backward key (size ys)))
         (unzip1 (rev (wsteps (sinputs pp ys b0 bs key 3)))) backward (rev (zip (y0 b0 :: pick ys bs) (b0 :: bs))))
      (fun p => f (unzip1 (rev p), unzip2 (rev p))).
Proof.
move=> s1 s2 gE; set st := unzip1 _.
have [eg ey] := wins_gam b0 key 3 s1 s2.
have sst : size st = size ys by rewrite /st /unzip1 size_map size_rev -[in RHS]ey /unzip2 size_map.
rewrite /drop_weights E_bind /sweep E_bind (@E_wforward key b0 bs ys pp z0) // -/st.
rewrite /gkern E_bind; apply: eq_E_always.
apply: always_imp (gfwd_size winit z0 st (rev (zip (y0 b0 :: pick ys bs) (b0 :: bs)))) => h sz.
rewrite /aux_backward E_bind [RHS]E_bind /gmv E_bind.
have sp : size (pick ys bs) = size ys by rewrite size_pick.
have -> : (head z0 (rev (zip (y0 b0 :: pick ys bs) (b0 :: bs)))).2 = last b0 bs.
  rewrite -nth0 nth_rev //= subn1 /= -last_nth /=.
  have le : (size bs <= size (pick ys bs))%N by rewrite s2 sp.
  rewrite -[in RHS](unzip2_zip le).
  by move: (zip (pick ys bs) bs) => l; move: (y0 b0) => y; clear; elim: l y b0 => [|[a b] l IH] y c //=.
have szq : size h.2 = size ys by rewrite sz.
rewrite /mv_key /gback; case: backward gE => gE; last first.
  by rewrite (E_scanning mv) -surjective_pairing; apply: eq_E.
have {}gE := gE isT.
pose st' := rev [seq GStep (fun _ _ _ => Ret [ffun=> ord0]) (fun _ _ _ => Ret y0) (fun _ _ _ => 0) (fun x x' => Gam x x' q) | q <- qq] : seq (gstep X n').
have sq : size qq = size ys by rewrite -(All2_size gE) size_zip s1 minnn.
rewrite (E_sampling mv (split key 2) (st := st')); last first.
- by rewrite /st' map_rev -map_comp map_rev.
- by rewrite szq /st' size_rev size_map sq.
rewrite szq -surjective_pairing; apply: eq_E => -[k al] /=.
rewrite -(@E_gbs_shift X n' _ st' st).
  by apply: eq_E.
have rv (I O : Type) (Rel : I -> O -> Prop) : forall l l' m m', All2 Rel l l' -> All2 Rel m m' -> All2 Rel (catrev l m) (catrev l' m').
  by elim=> [|a l IH] [|b l'] m m' //= [r rr] mm; apply: IH.
rewrite /st rev_unzip1 /st'; apply: (rv) => //.
move: gE eg; rewrite /unzip1; move: (wsteps _) (zip ys pp) => l zz.
elim: qq zz l {sq st'} => [|q qq IH] [|z zz] [|s l] //= [[d H] al'] [eg em]; split; last exact: IH em.
by exists d => x x' /=; rewrite eg.
Qed.

(** *** The index of the reference given all particles *)
Lemma sweep_forms key ys pp qq (backward : bool) (f : seq X -> seq 'I_n -> R) :
  size pp = size ys ->
  (backward -> All2 (fun q yp => exists d, forall x x', wt x x' yp = Gam x x' q + d x') qq (zip ys pp)) ->
  let z0 := (y0 ord0, ord0 : 'I_n) in
  exists sts, [/\ zsteps_ok (rev sts), zsteps_proper (rev sts),
    idx_sum (size ys) (fun b0 bs => path_target w0 wt (zip ys pp) (y0 b0) (pick ys bs) *
      E (drop_weights (sweep key b0 bs y0 ys pp qq backward)) (fun r => f r.1 r.2))
    = zsum winit y0 z0 (rev sts) (fun p =>
        E (gkern winit z0 (fun c => split (split key 2) c) (gmv mv (mv_key backward key (size ys)))
             (unzip1 (rev sts)) backward p) (fun p => f (unzip1 (rev p)) (unzip2 (rev p))))
  & forall f, idx_sum (size ys) (fun b0 bs => path_target w0 wt (zip ys pp) (y0 b0) (pick ys bs) *
      f (y0 b0 :: pick ys bs) (b0 :: bs))
    = zsum winit y0 z0 (rev sts) (fun p => f (unzip1 (rev p)) (unzip2 (rev p)))].
Proof.
move=> s1 gE z0.
pose bs0 := nseq (size ys) (ord0 : 'I_n).
have sb0 : size bs0 = size ys by rewrite size_nseq.
pose sts := wsteps (sinputs pp ys ord0 bs0 key 3).
have [eg ey] := @wins_gam pp ys ord0 bs0 key 3 s1 sb0; rewrite -/sts in eg ey.
have Es b0 bs : size bs = size ys -> wsteps (sinputs pp ys b0 bs key 3) = sts.
  by move=> sb; apply: wins_steps.
have sz : size (zip ys pp) = size ys by rewrite size_zip s1 minnn.
have [ok pr] := wsteps_ok (sinputs pp ys ord0 bs0 key 3).
exists sts; split=> //.
- rewrite -(@zsum_idx X n' _ wt w0 winit y0 z0 sts (zip ys pp) (fun p => E (gkern _ _ _ _ _ _ p) _)) // sz.
  apply: eq_bigr => b0 _; apply: eq_bigr => bs _; rewrite ey; congr (_ * _).
  by rewrite (@E_sweep key b0 bs ys pp qq backward z0) ?size_tuple // Es ?size_tuple.
- move=> g.
  rewrite -(@zsum_idx X n' _ wt w0 winit y0 z0 sts (zip ys pp) (fun p => g (unzip1 (rev p)) (unzip2 (rev p)))) // sz.
  apply: eq_bigr => b0 _; apply: eq_bigr => bs _; rewrite ey; congr (_ * _).
  have sp : size (pick ys bs) = size bs by rewrite size_pick ?size_tuple.
  by rewrite revK unzip1_zip ?unzip2_zip //= sp.
Qed.

Theorem sweep_density key ys pp qq (backward : bool) (f : seq X -> seq 'I_n -> R) :
  good_mover mv -> size pp = size ys ->
  (backward -> All2 (fun q yp => exists d, forall x x', wt x x' yp = Gam x x' q + d x') qq (zip ys pp)) ->
  idx_sum (size ys) (fun b0 bs => path_target w0 wt (zip ys pp) (y0 b0) (pick ys bs) *
      E (drop_weights (sweep key b0 bs y0 ys pp qq backward)) (fun r => f r.1 r.2))
  = idx_sum (size ys) (fun b0 bs => path_target w0 wt (zip ys pp) (y0 b0) (pick ys bs) *
      f (y0 b0 :: pick ys bs) (b0 :: bs)).
Proof.
move=> mv_good s1 gE; have [sts [ok pr -> ->]] := sweep_forms key f s1 gE.
rewrite (zkern_invariant winit_ok ok); first by rewrite zsum_fwd.
  by apply: returns_bs => //; exact: winit_ok.
move=> lw g; rewrite -[RHS](mv_good (mv_key backward key (size ys)) (normalize lw)).
  by apply: eq_bigr => k _; rewrite /gmv E_bind.
exact: normalize_prob.
Qed.

Theorem sweep_density_error key ys pp qq (backward : bool) (f : seq X -> seq 'I_n -> R) c eps :
  (forall key w (g : 'I_n -> R), prob_vec w -> (forall k, `|g k| <= c) ->
     `|\sum_k w k * E (mv key w k) (fun r => g r.1) - \sum_k w k * g k| <= eps) ->
  (forall xs bs, `|f xs bs| <= c) -> size pp = size ys ->
  (backward -> All2 (fun q yp => exists d, forall x x', wt x x' yp = Gam x x' q + d x') qq (zip ys pp)) ->
  `| idx_sum (size ys) (fun b0 bs => path_target w0 wt (zip ys pp) (y0 b0) (pick ys bs) *
      E (drop_weights (sweep key b0 bs y0 ys pp qq backward)) (fun r => f r.1 r.2))
     - idx_sum (size ys) (fun b0 bs => path_target w0 wt (zip ys pp) (y0 b0) (pick ys bs) *
         f (y0 b0 :: pick ys bs) (b0 :: bs)) |
  <= idx_sum (size ys) (fun b0 bs => path_target w0 wt (zip ys pp) (y0 b0) (pick ys bs) * eps).
Proof.
move=> mvb fc s1 gE; have [sts [ok pr -> e]] := sweep_forms key f s1 gE.
rewrite (e f) (e (fun _ _ => eps)).
rewrite -(zsum_fwd _ winit_proper (fun p => f (unzip1 (rev p)) (unzip2 (rev p))) ok pr).
rewrite -(zsum_fwd _ winit_proper (fun=> eps) ok pr).
apply: (@zkern_error X n' winit y0 _ winit_ok _ _ _ ok backward _ c eps) => //.
  by apply: returns_bs => //; exact: winit_ok.
move=> lw g gc /=.
have := mvb (mv_key backward key (size ys)) (normalize lw) g (normalize_prob lw) gc.
by congr (`|_ - _| <= _); apply: eq_bigr => k _; rewrite /gmv E_bind.
Qed.

End Sweep.
