(** * DensityProofs: the kernel of csmc.py given all particles, for any type of states. *)
From Coq Require Import Reals FunctionalExtensionality.
From mathcomp Require Import all_ssreflect all_algebra.
From Verif Require Import RInst Prog ProgTheory Resampling Spec ResamplingProofs.
From Verif Require Import KillingProofs MoveProofs ResamplingSpecs Csmc SmcTheory BackwardProofs.
From Verif Require Import CsmcInvariance FrozenTheory DensitySpec DensityModel.

Set Implicit Arguments.
Unset Strict Implicit.
Unset Printing Implicit Defensive.
Import GRing.Theory Num.Theory Order.TTheory.
Local Open Scope ring_scope.

Lemma E_observed (A : Type) k d (a : A) f : E (observed k d a) f = d * f a.
Proof. by rewrite /observed /E (big_pred1 tt) // => -[]. Qed.

Lemma size_pick (X : Type) (n : nat) (ys : seq {ffun 'I_n -> X}) bs :
  size bs = size ys -> size (pick ys bs) = size ys.
Proof. by elim: ys bs => [|y ys IH] [|b bs] //= [/IH ->]. Qed.

Section Sums.
Variables (X : Type) (n' : nat).
Local Notation n := n'.+1.
Local Notation pop := (pop X n').
Variable (Q : Type) (Gam : X -> X -> Q -> R) (G0 : X -> R).

(** Sums over the later indices. *)
Fixpoint zfsum (sts : seq (gstep X n' * pop)) (z : X * 'I_n) (F : seq (X * 'I_n) -> R) : R :=
  match sts with
  | [::] => F [::]
  | s :: sts' => \sum_b exp (g_gam s.1 z.1 (s.2 b)) * zfsum sts' (s.2 b, b) (fun q => F ((s.2 b, b) :: q))
  end.

Lemma zsum_catrev (gi : ginit X n') y0 z0 sts st F :
  zsum gi y0 z0 (catrev sts st) F
  = zsum gi y0 z0 st (fun p => zfsum sts (head z0 p) (fun q => F (catrev q p))).
Proof. by elim: sts st F => [|s sts IH] st F //=; rewrite IH. Qed.

Lemma zsum_rev (gi : ginit X n') y0 z0 sts F :
  zsum gi y0 z0 (rev sts) F
  = \sum_b exp (g0_gam gi (y0 b)) * zfsum sts (y0 b, b) (fun q => F (rev ((y0 b, b) :: q))).
Proof. by rewrite /rev zsum_catrev. Qed.

Lemma zfsum_tuple (sts : seq (gstep X n' * pop)) qs z F :
  [seq g_gam s.1 | s <- sts] = [seq (fun x y => Gam x y q) | q <- qs] ->
  zfsum sts z F
  = \sum_(bs : (size qs).-tuple 'I_n)
      exp (log_path Gam z.1 (pick (unzip2 sts) bs) qs) * F (zip (pick (unzip2 sts) bs) bs).
Proof.
elim: sts qs z F => [|s sts IH] [|q qs] z F //=.
  rewrite (sum_tuple0 (fun bs : seq 'I_n => exp (log_path Gam z.1 (pick [::] bs) [::]) * F (zip (pick [::] bs) bs))) /=.
  by rewrite exp_0 mul1r.
move=> [eg em].
rewrite (@sum_tuple_cons _ _ (fun bs => exp (log_path Gam z.1 (pick (s.2 :: unzip2 sts) bs) (q :: qs)) *
  F (zip (pick (s.2 :: unzip2 sts) bs) bs))).
apply: eq_bigr => b _ /=; rewrite (IH qs) // mulr_sumr; apply: eq_bigr => bs _.
by rewrite eg expRD mulrA.
Qed.

Lemma zsum_idx (gi : ginit X n') (y0 : pop) z0 (sts : seq (gstep X n' * pop)) qs (F : seq (X * 'I_n) -> R) :
  g0_gam gi = G0 ->
  [seq g_gam s.1 | s <- sts] = [seq (fun x y => Gam x y q) | q <- qs] ->
  idx_sum (size qs) (fun b0 bs => path_target G0 Gam qs (y0 b0) (pick (unzip2 sts) bs) *
     F (rev (zip (y0 b0 :: pick (unzip2 sts) bs) (b0 :: bs))))
  = zsum gi y0 z0 (rev sts) F.
Proof.
move=> e0 eg; rewrite zsum_rev; apply: eq_bigr => b0 _; rewrite (zfsum_tuple _ _ eg).
by rewrite mulr_sumr; apply: eq_bigr => bs _; rewrite /path_target expRD -mulrA e0.
Qed.

End Sums.

Section Forms.
Variables (X : Type) (n' : nat) (P Q : Type).
Local Notation n := n'.+1.
Local Notation pop := (pop X n').
Variables (md : model X n' P Q) (rs : resampler n) (mv : mover n).

(** From a description of the forward pass to one of the kernel. *)
Lemma E_kernel_form (gi : ginit X n') z0 st key x0 xs b0 bs ps qs (backward : bool) f :
  size bs = size qs -> size xs = size qs -> size st = size qs ->
  (backward -> [seq g_gam s | s <- st] = [seq (fun x y => Gammat md x y q) | q <- rev qs]) ->
  (forall f, E (forward_pass rs md key x0 xs b0 bs ps qs true) f
     = E (gfwd gi z0 st (rev (zip (x0 :: xs) (b0 :: bs)))) (fun h => f (h.1, rev h.2))) ->
  E (drop_weights (kernel rs mv md key x0 xs b0 bs ps qs backward true)) f
  = E (gkern gi z0 (fun c => split (split key 2) c) (gmv mv (mv_key backward key (size qs)))
         st backward (rev (zip (x0 :: xs) (b0 :: bs))))
      (fun p => f (unzip1 (rev p), unzip2 (rev p))).
Proof.
move=> s2 s3 sst eg fE; rewrite /drop_weights E_bind /kernel E_bind fE.
rewrite /gkern E_bind; apply: eq_E_always.
apply: always_imp (gfwd_size gi z0 st (rev (zip (x0 :: xs) (b0 :: bs)))) => h sz.
rewrite E_bind /gmv E_bind.
have -> : (head z0 (rev (zip (x0 :: xs) (b0 :: bs)))).2 = last b0 bs.
  rewrite -nth0 nth_rev //= subn1 /= -last_nth /=.
  have le : (size bs <= size xs)%N by rewrite s2 s3.
  rewrite -[in RHS](unzip2_zip le).
  by elim: (zip xs bs) (x0) (b0) => [|[a b] l IH] y c //=.
have szq : size h.2 = size qs by rewrite sz.
rewrite /mv_key /gback; case: backward eg => eg.
- rewrite (E_sampling mv (split key 2) (st := st)) //; last exact: eg.
  by rewrite szq -surjective_pairing [RHS]E_bind; apply: eq_E => -[k al] /=; apply: eq_E.
- by rewrite (E_scanning mv) -surjective_pairing [RHS]E_bind; apply: eq_E.
Qed.

End Forms.

Section Csmc.
Variables (X : Type) (n' : nat) (P Q : Type).
Local Notation n := n'.+1.
Local Notation pop := (pop X n').
Variables (md : model X n' P Q) (rs : resampler n) (mv : mover n).
Variables (D0 : 'I_n -> pop -> R) (Dt : P -> pop -> 'I_n -> pop -> R).
Local Notation alike0 := (alike0 md D0).
Local Notation aliket := (aliket md Dt).
Local Notation observed_model := (observed_model md D0 Dt).

Hypotheses (a0 : alike0) (rs_good : good_resampler rs).

Definition dinit (key : key) (y0 : pop) : ginit X n' :=
  GInit (fun b x => observed (split key 0) (D0 b y0) (upd y0 b x)) (log_w0 md) (Gamma0 md).

Definition dstep (key : key) (p : P) (q : Q) (y : pop) : gstep X n' :=
  GStep (fun w i j => rs (split key 1) w i j true)
        (fun xm b x => observed (split key 0) (Dt p xm b y) (upd y b x))
        (fun xm xt => log_wt md xm xt p q)
        (fun x x' => Gammat md x x' q).

Lemma upd_id (y : pop) b : upd y b (y b) = y.
Proof. by apply/ffunP => i; rewrite /upd ffunE; case: eqP => [->|]. Qed.

Lemma dens_step (g m : 'I_n -> R) (D : 'I_n -> R) :
  (forall b b', 0 <= D b /\ D b * exp (m b) = D b' * exp (m b')) ->
  exists S : R, 0 <= S /\ forall b, exp (g b) * D b = S * exp (normalize_log (fun i => g i - m i) b).
Proof.
move=> H; exists (D ord0 * exp (m ord0) * \sum_j exp (g j - m j)); split.
  apply: mulr_ge0; last exact/ltW/sum_exp_gt0.
  by apply: mulr_ge0; [case: (H ord0 ord0)|apply/ltW/expR_gt0].
move=> b; rewrite (proj2 (H ord0 b)) -/(normalize _ b) normalizeE.
have /lt0r_neq0 s0 := sum_exp_gt0 (fun j => g j - m j).
rewrite expRB; have /lt0r_neq0 := expR_gt0 (m b).
by move: (exp (g b)) (exp (m b)) (D b) (\sum_j _) s0 => eg em d s /eqP s0 /eqP em0; toR; field.
Qed.

Lemma dinit_ok key y0 : zinit_ok (dinit key y0) y0.
Proof.
have [S [S0 HS]] := dens_step (fun i => Gamma0 md (y0 i)) (a0 y0).
exists S; split=> // b F.
by rewrite [E _ _]E_observed upd_id mulrA HS.
Qed.

Lemma dstep_ok key ps p q y : aliket ps -> List.In p ps -> rs_ok (dstep key p q y) /\ zprop_ok (dstep key p q y, y).
Proof.
move=> at_ ip; split; first by move=> w pw; exact: rs_good.
move=> xm; have [S [S0 HS]] := dens_step (fun i => Gammat md (xm i) (y i) q) (at_ p ip xm y).
exists S; split=> // b F.
by rewrite [E _ _]E_observed upd_id mulrA HS.
Qed.

(** The steps of a run, with their particles. *)
Definition dsteps (ins : seq (inp X n' (P * 'I_n * pop) Q)) : seq (gstep X n' * pop) :=
  [seq (dstep (i_key i) (i_p i).1.1 (i_q i) (i_p i).2, (i_p i).2) | i <- ins].

Local Notation dins ps qs b0 bs key c ys := (inputs (obs_params ps bs ys) qs b0 bs key c (pick ys bs)).

Lemma zsteps_rcons (l : seq (gstep X n' * pop)) s : zsteps_ok l -> rs_ok s.1 /\ zprop_ok s -> zsteps_ok (rcons l s).
Proof. by elim: l => [|t l IH] /= => [_ []|[? ? ok] h] //; split=> //; apply: IH. Qed.

Lemma dsteps_ok ps qs b0 bs key c ys : aliket ps -> zsteps_ok (rev (dsteps (dins ps qs b0 bs key c ys))).
Proof.
elim: qs ps b0 bs c ys => [|q qs IH] [|p ps] b0 [|b bs] c [|y ys] //= at_.
rewrite /dsteps /= rev_cons; apply: zsteps_rcons.
  by apply: IH => p' ip; apply: at_; right.
by apply: (dstep_ok _ _ _ at_); left.
Qed.

Lemma dins_gam ps qs b0 bs key c ys :
  size ps = size qs -> size bs = size qs -> size ys = size qs ->
  [seq g_gam s.1 | s <- dsteps (dins ps qs b0 bs key c ys)]
  = [seq (fun x y => Gammat md x y q) | q <- qs]
  /\ unzip2 (dsteps (dins ps qs b0 bs key c ys)) = ys.
Proof.
elim: qs ps b0 bs c ys => [|q qs IH] [|p ps] b0 [|b bs] c [|y ys] //= [s1] [s2] [s3].
have [-> u] := IH ps b bs c.+1 ys s1 s2 s3; split=> //.
by move: u; rewrite /unzip2 /= => ->.
Qed.

Lemma dins_steps ps qs b0 bs key c ys b0' bs' :
  size ps = size qs -> size bs = size qs -> size ys = size qs -> size bs' = size qs ->
  dsteps (dins ps qs b0 bs key c ys) = dsteps (dins ps qs b0' bs' key c ys).
Proof.
elim: qs ps b0 bs c ys b0' bs' => [|q qs IH] [|p ps] b0 [|b bs] c [|y ys] b0' [|b' bs'] //=.
by move=> [s1] [s2] [s3] [s4]; congr (_ :: _); apply: IH.
Qed.

Lemma dins_good ps qs b0 bs key c ys :
  all_good (fun i : inp X n' (P * 'I_n * pop) Q => (i_p i).1.2 = i_b i) (dins ps qs b0 bs key c ys).
Proof.
elim: qs ps b0 bs c ys => [|q qs IH] [|p ps] b0 [|b bs] c [|y ys] //=.
by split=> //; apply: IH.
Qed.

Lemma E_dforward key b0 bs ps qs (y0 : pop) ys z0 f :
  size ps = size qs -> size bs = size qs -> size ys = size qs ->
  E (forward_pass rs (observed_model b0 y0) key (y0 b0) (pick ys bs) b0 bs (obs_params ps bs ys) qs true) f
  = E (gfwd (dinit key y0) z0 (unzip1 (rev (dsteps (dins ps qs b0 bs (split key 1) 0 ys))))
          (rev (zip (y0 b0 :: pick ys bs) (b0 :: bs)))) (fun h => f (h.1, rev h.2)).
Proof.
move=> s1 s2 s3; rewrite /forward_pass E_bind.
have := @E_scan_gfwd_on X n' (dinit key y0) z0 _ (fwd_body rs (observed_model b0 y0) true)
  (fun i => dstep (i_key i) (i_p i).1.1 (i_q i) (i_p i).2) (fun i => (i_x i, i_b i)) (@i_bm1 X n' _ Q)
  (fun i => (i_p i).1.2 = i_b i) _ (y0 b0, b0)
  (dins ps qs b0 bs (split key 1) 0 ys) (fun h0 _ outs => f (h0, outs)).
have so : size (obs_params ps bs ys) = size qs by rewrite /obs_params !size_zip s1 s2 s3 !minnn.
have sp : size (pick ys bs) = size qs by rewrite size_pick ?s3.
rewrite inputs_ref // rev_unzip1 /dsteps /unzip1 -map_comp => <-.
- rewrite [LHS]E_observed [RHS]E_observed /= E_bind exp_normalize_log; congr (_ * _).
  by apply: eq_E => -[c o].
- move=> w x i g gi; rewrite /fwd_body E_bind; apply: eq_E => A; cbv zeta.
  rewrite E_bind [LHS]E_observed [RHS]E_observed gi; congr (_ * _) => /=.
  by rewrite exp_normalize_log.
- exact: inputs_chained.
- exact: dins_good.
Qed.

Lemma density_forms key ps qs (y0 : pop) ys backward (f : seq X -> seq 'I_n -> R) :
  aliket ps -> size ps = size qs -> size ys = size qs ->
  let z0 := (y0 ord0, ord0 : 'I_n) in
  exists sts, [/\ zsteps_ok (rev sts),
    idx_sum (size qs) (fun b0 bs => path_target (Gamma0 md) (Gammat md) qs (y0 b0) (pick ys bs) *
      E (drop_weights (kernel rs mv (observed_model b0 y0) key (y0 b0) (pick ys bs) b0 bs
           (obs_params ps bs ys) qs backward true)) (fun r => f r.1 r.2))
    = zsum (dinit key y0) y0 z0 (rev sts) (fun p =>
        E (gkern (dinit key y0) z0 (fun c => split (split key 2) c) (gmv mv (mv_key backward key (size qs)))
             (unzip1 (rev sts)) backward p) (fun p => f (unzip1 (rev p)) (unzip2 (rev p))))
  & forall f, idx_sum (size qs) (fun b0 bs => path_target (Gamma0 md) (Gammat md) qs (y0 b0) (pick ys bs) *
      E (forward_pass rs (observed_model b0 y0) key (y0 b0) (pick ys bs) b0 bs (obs_params ps bs ys) qs true)
        (fun=> f (y0 b0 :: pick ys bs) (b0 :: bs)))
    = zsum (dinit key y0) y0 z0 (rev sts) (fun p =>
        E (gfwd (dinit key y0) z0 (unzip1 (rev sts)) p) (fun=> f (unzip1 (rev p)) (unzip2 (rev p))))].
Proof.
move=> at_ s1 s3 z0.
pose bs0 := nseq (size qs) (ord0 : 'I_n).
have sb0 : size bs0 = size qs by rewrite size_nseq.
pose sts := dsteps (dins ps qs ord0 bs0 (split key 1) 0 ys).
have [eg ey] := @dins_gam ps qs ord0 bs0 (split key 1) 0 ys s1 sb0 s3.
rewrite -/sts in eg ey.
have Es b0 bs : size bs = size qs -> dsteps (dins ps qs b0 bs (split key 1) 0 ys) = sts.
  by move=> sb; apply: dins_steps.
exists sts; split; first exact: dsteps_ok.
- rewrite -(@zsum_idx X n' Q (Gammat md) (Gamma0 md) (dinit key y0) y0 z0 sts qs (fun p => E (gkern _ _ _ _ _ _ p) _)) //.
  apply: eq_bigr => b0 _; apply: eq_bigr => bs _; rewrite ey; congr (_ * _).
  rewrite (@E_kernel_form X n' _ Q (observed_model b0 y0) rs mv (dinit key y0) z0 (unzip1 (rev sts))) ?size_tuple //.
  + by rewrite size_pick ?size_tuple // s3.
  + by rewrite /unzip1 size_map size_rev -[in RHS](size_map (fun q x y => Gammat md x y q)) -eg size_map.
  + by move=> _; rewrite rev_unzip1 map_rev /unzip1 -map_comp map_rev -eg.
  + by move=> g; rewrite (@E_dforward key b0 bs ps qs y0 ys z0) ?size_tuple // Es ?size_tuple.
- move=> g.
  rewrite -(@zsum_idx X n' Q (Gammat md) (Gamma0 md) (dinit key y0) y0 z0 sts qs (fun p => E (gfwd _ _ _ p) _)) //.
  apply: eq_bigr => b0 _; apply: eq_bigr => bs _; rewrite ey; congr (_ * _).
  rewrite (@E_dforward key b0 bs ps qs y0 ys z0) ?size_tuple // Es ?size_tuple //.
  apply: eq_E => h; have sp : size (pick ys bs) = size bs by rewrite size_pick ?size_tuple.
  by rewrite revK unzip1_zip ?unzip2_zip //= sp.
Qed.

Theorem csmc_density key ps qs (y0 : pop) ys (f : seq X -> seq 'I_n -> R) :
  aliket ps -> good_mover mv -> size ps = size qs -> size ys = size qs ->
  idx_sum (size qs) (fun b0 bs => path_target (Gamma0 md) (Gammat md) qs (y0 b0) (pick ys bs) *
    E (drop_weights (kernel rs mv (observed_model b0 y0) key (y0 b0) (pick ys bs) b0 bs
         (obs_params ps bs ys) qs false true)) (fun r => f r.1 r.2))
  = idx_sum (size qs) (fun b0 bs => path_target (Gamma0 md) (Gammat md) qs (y0 b0) (pick ys bs) *
      E (forward_pass rs (observed_model b0 y0) key (y0 b0) (pick ys bs) b0 bs (obs_params ps bs ys) qs true)
        (fun=> f (y0 b0 :: pick ys bs) (b0 :: bs))).
Proof.
move=> at_ mv_good s1 s3.
have [sts [ok -> ->]] := density_forms key y0 false f at_ s1 s3.
apply: zkern_invariant => //; [exact: dinit_ok|apply: returns_trace => //; exact: dinit_ok|].
move=> lw g; rewrite -[RHS](mv_good (mv_key false key (size qs)) (normalize lw)).
  by apply: eq_bigr => k _; rewrite /gmv E_bind.
exact: normalize_prob.
Qed.

Theorem csmc_density_error key ps qs (y0 : pop) ys (f : seq X -> seq 'I_n -> R) c eps :
  aliket ps ->
  (forall key w (g : 'I_n -> R), prob_vec w -> (forall k, `|g k| <= c) ->
     `|\sum_k w k * E (mv key w k) (fun r => g r.1) - \sum_k w k * g k| <= eps) ->
  (forall xs bs, `|f xs bs| <= c) -> size ps = size qs -> size ys = size qs ->
  let joint g := idx_sum (size qs) (fun b0 bs => path_target (Gamma0 md) (Gammat md) qs (y0 b0) (pick ys bs) *
      E (forward_pass rs (observed_model b0 y0) key (y0 b0) (pick ys bs) b0 bs (obs_params ps bs ys) qs true)
        (fun=> g (y0 b0 :: pick ys bs) (b0 :: bs))) in
  `| idx_sum (size qs) (fun b0 bs => path_target (Gamma0 md) (Gammat md) qs (y0 b0) (pick ys bs) *
       E (drop_weights (kernel rs mv (observed_model b0 y0) key (y0 b0) (pick ys bs) b0 bs
         (obs_params ps bs ys) qs false true)) (fun r => f r.1 r.2))
     - joint f | <= joint (fun _ _ => eps).
Proof.
move=> at_ mvb fc s1 s3; cbv zeta.
have [sts [ok -> e]] := density_forms key y0 false f at_ s1 s3; rewrite (e f) (e (fun _ _ => eps)).
apply: (@zkern_error X n' (dinit key y0) y0 _ (dinit_ok key y0) _ _ _ ok false _ c eps) => //.
  by apply: returns_trace => //; exact: dinit_ok.
move=> lw g gc /=.
have := mvb (mv_key false key (size qs)) (normalize lw) g (normalize_prob lw) gc.
by congr (`|_ - _| <= _); apply: eq_bigr => k _; rewrite /gmv E_bind.
Qed.

End Csmc.
