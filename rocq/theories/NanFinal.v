(** * NanFinal: invariance of targets with zeros, and that runs have results (C86). *)
From Coq Require Import Reals Lra FunctionalExtensionality.
From mathcomp Require Import all_ssreflect all_algebra.
From Verif Require Import RInst Prog ProgTheory Resampling Spec ResamplingProofs Csmc CsmcInvariance.
From Verif Require Import NanCsmc NanSpec NanTheory NanNumbers NanProofs.

Set Implicit Arguments.
Unset Strict Implicit.
Unset Printing Implicit Defensive.
Import GRing.Theory Num.Theory Order.TTheory.
Local Open Scope ring_scope.

Section Invariance.
Variables (X : finType) (n' : nat) (P Q : Type).
Local Notation n := n'.+1.
Local Notation lwts := (xlwts n').
Local Notation nstep := (nstep X n' lwts).
Variables (md : xmodel X n' P Q) (rs : resampler n) (mv : mover n).
Variables (mu0 : X -> R) (mut : X -> P -> X -> R) (G0 : X -> R) (Gt : X -> X -> Q -> R).
Hypotheses (mk : markov_zeros md mu0 mut G0 Gt) (rs_good : good_resampler rs).
Local Notation cinit := (cinit md G0).
Local Notation cstep := (cstep md rs Gt).
Local Notation isteps := (isteps md rs Gt).

Lemma log_ge0 a y : log_of a y -> 0 <= y.
Proof. by move/log_dens => [<- _]; exact: dens_ge0. Qed.

Lemma cinit_ok key : init_ok (@wnorm n') (cinit key).
Proof.
case: mk => -[s0 l0 g0 a0] _ _ _ _; have s := s0 (split key 0); split=> /=.
- by move=> x; exact: log_ge0 (g0 x).
- have [S HS] := @prop_law n' X _ (fun _ => mu0) (fun _ => G0) (fun _ => xGamma0 md) _ s l0 (fun _ => g0) (fun _ => a0).
  exists S => b F; under eq_bigr do rewrite E_bind.
  rewrite (HS b F); apply: eq_bigr => xt _; by rewrite wnorm_normalize.
- by move=> b x; apply: proper_bind => //; case: s.
- move=> b x; apply/almost_bind; apply: always_almost; apply: always_true => y /=.
  by rewrite upd_same.
Qed.

Lemma cstep_ok key p q : [/\ rs_ok (cstep key p q), bw_ok (@wnorm n') (cstep key p q),
  prop_ok (@wnorm n') (cstep key p q) & forall x y, 0 <= s_gam (cstep key p q) x y].
Proof.
case: mk => _ st lt gt at_; split=> /=.
- by move=> w pw; exact: rs_good.
- move=> xl l x; rewrite /= /xbwd_weights.
  have := @bw_law n' (fun k => xGammat md (xl k) x q) l (fun k => proj2 (log_dens (gt (xl k) x q))).
  rewrite /bw_log.
  have e k : dens (xGammat md (xl k) x q) = Gt (xl k) x q by have [] := log_dens (gt (xl k) x q).
  case: (finite_weights _) => [v [pv H]|H]; last by move=> k; rewrite -e.
  split=> // j; rewrite -[in RHS]e -H; congr (_ * _); by apply: eq_bigr => k _; rewrite e.
- move=> xm; have s := st (split key 0) xm p; split=> /=.
  + have [S HS] := @prop_law n' X _ (fun i => mut (xm i) p) (fun i x => Gt (xm i) x q)
       (fun i x => xGammat md (xm i) x q) (fun xt => xMt_logpdf md xm xt p) s
       (fun xt => lt xm xt p) (fun i x => gt (xm i) x q) (fun i x => @at_ (xm i) x p q).
    exists S => b F; under eq_bigr do rewrite E_bind.
    rewrite (HS b F); apply: eq_bigr => xt _; by rewrite wnorm_normalize.
  + by move=> b x; apply: proper_bind => //; case: s.
  + move=> b x; apply/almost_bind; apply: always_almost; apply: always_true => y /=.
    by rewrite upd_same.
- by move=> x y; exact: log_ge0 (gt x y q).
Qed.

Lemma isteps_ok ins : steps_ok (@wnorm n') (rev (isteps ins)).
Proof.
rewrite /isteps -map_rev; elim: (rev ins) => [|i l IH] //=.
by have [] := cstep_ok (xi_key i) (xi_p i) (xi_q i).
Qed.

(** The sum over trajectories, most recent state first. *)
Lemma fsum_tuple (sts : seq nstep) qs z F :
  [seq s_gam s | s <- sts] = [seq (fun x y => Gt x y q) | q <- qs] ->
  fsum sts z F
  = \sum_(xs : (size qs).-tuple X) \sum_(bs : (size qs).-tuple 'I_n)
      pot_path Gt z.1 xs qs * F (zip xs bs).
Proof.
elim: sts qs z F => [|s sts IH] [|q qs] z F //=.
  rewrite (sum_tuple0 (fun xs => \sum_(bs : 0.-tuple 'I_n) pot_path Gt z.1 xs [::] * F (zip xs bs))) /=.
  by rewrite (sum_tuple0 (fun bs => 1 * F (zip [::] bs))) /= mul1r.
move=> [eg em].
rewrite (@sum_tuple_cons _ _ (fun xs => \sum_(bs : (size qs).+1.-tuple 'I_n) pot_path Gt z.1 xs (q :: qs) * F (zip xs bs))).
rewrite exchange_big; apply: eq_bigr => x _ /=.
under [RHS]eq_bigr do rewrite (@sum_tuple_cons _ _ (fun bs => Gt z.1 x q * pot_path Gt x _ qs * F (zip (x :: _) bs))).
rewrite exchange_big; apply: eq_bigr => b _ /=.
rewrite (IH qs) // mulr_sumr; apply: eq_bigr => xs _; rewrite mulr_sumr; apply: eq_bigr => bs _.
by rewrite eg mulrA.
Qed.

Lemma psum_traj key z0 (sts : seq nstep) qs (F : seq (X * 'I_n) -> R) :
  [seq s_gam s | s <- sts] = [seq (fun x y => Gt x y q) | q <- qs] ->
  traj_sum (size qs) (fun x0 xs b0 bs =>
     pot_target G0 Gt qs x0 xs * F (rev (zip (x0 :: xs) (b0 :: bs))))
  = psum (cinit key) z0 (rev sts) F.
Proof.
move=> eg; rewrite psum_rev exchange_big /traj_sum.
apply: eq_bigr => x0 _; apply: eq_bigr => b0 _; rewrite (fsum_tuple _ _ eg).
rewrite mulr_sumr; apply: eq_bigr => xs _; rewrite mulr_sumr; apply: eq_bigr => bs _.
by rewrite /pot_target -mulrA.
Qed.

Theorem nan_invariant key ps qs backward : good_mover mv -> size ps = size qs ->
  leaves_invariant_result (size qs) (pot_target G0 Gt qs)
    (fun x0 xs b0 bs => odrop (xkernel rs mv md key x0 xs b0 bs ps qs backward true)).
Proof.
move=> mv_good s1 f.
have [x _|] := pickP (pred_of_simpl (predT : simpl_pred X)); last first.
  by move=> no; rewrite /traj_sum !big1 // => x0 _; have := no x0.
pose z0 := (x, ord0 : 'I_n).
pose xs0 := nseq (size qs) x; pose bs0 := nseq (size qs) (ord0 : 'I_n).
pose sts := isteps (xinputs ps qs ord0 bs0 (split key 1) 0 xs0).
have eg : [seq s_gam s | s <- sts] = [seq (fun x y => Gt x y q) | q <- qs].
  by apply: (@inputs_map _ _ _ _ _ _ _ _ _ (fun q x y => Gt x y q)); rewrite ?size_nseq.
transitivity (psum (cinit key) z0 (rev sts) (fun p =>
   E (nkern (@usable n') (@wnorm n') (cinit key) z0 (fun c => split (split key 2) c)
       (gmv mv (mv_key backward key (size qs))) (rev sts) backward p) (fun o => f (omap (@out_path X n') o)))).
  rewrite -(@psum_traj key z0 sts qs (fun p => E (nkern _ _ _ _ _ _ _ _ p) _)) //.
  apply: eq_bigr => x0 _; apply: eq_bigr => b0 _; apply: eq_bigr => xs _; apply: eq_bigr => bs _.
  rewrite (@E_kernel X n' P Q md rs mv G0 Gt key x0 xs b0 bs ps qs backward z0) ?size_tuple //.
  by rewrite (@inputs_steps X n' P Q md rs Gt ps qs b0 bs (split key 1) 0 xs ord0 bs0 xs0) ?size_tuple ?size_nseq.
rewrite (nkern_invariant z0 (@wnorm_prob n') (@wnorm_bad n') (cinit_ok key)); [|exact: isteps_ok|].
- rewrite -(@psum_traj key z0 sts qs (fun p => f (Some (out_path p)))) //.
  apply: eq_bigr => x0 _; apply: eq_bigr => b0 _; apply: eq_bigr => xs _; apply: eq_bigr => bs _.
  by rewrite /out_path revK unzip1_zip ?unzip2_zip //= ?size_tuple.
- move=> w pw g; rewrite -[RHS](mv_good (mv_key backward key (size qs)) w) //.
  by apply: eq_bigr => k _; rewrite /gmv E_bind.
Qed.

(** From one trajectory of the target. *)
Lemma sum_pos_zero (I : finType) (a : I -> R) (i : I) : (forall j, 0 <= a j) -> \sum_j a j = 0 -> a i = 0.
Proof.
move=> a0 /eqP; rewrite psumr_eq0 => [/allP H|j _]; last exact: a0.
by apply/eqP; exact: H (mem_index_enum i).
Qed.

Lemma pot_ge0 qs x0 (xs : seq X) : 0 <= pot_target G0 Gt qs x0 xs.
Proof.
case: mk => -[_ _ g0 _] _ _ gt _; rewrite /pot_target; apply: mulr_ge0; first exact: log_ge0 (g0 x0).
elim: qs x0 xs => [|q qs IH] x0 [|x xs] /=; try exact: ler01.
by apply: mulr_ge0; [exact: log_ge0 (gt x0 x q) | exact: IH].
Qed.

Lemma nan_proper key x0 xs b0 bs ps qs backward : proper_mover mv ->
  size ps = size qs -> size bs = size qs -> size xs = size qs ->
  forall f, (forall o, 0 <= f o) ->
  0 <= E (odrop (xkernel rs mv md key x0 xs b0 bs ps qs backward true)) f.
Proof.
move=> pm s1 s2 s3 f f0; rewrite (@E_kernel X n' P Q md rs mv G0 Gt key x0 xs b0 bs ps qs backward (x0, b0)) //.
apply: E_ge0 => [|o]; last exact: f0.
apply: (@nkern_proper X n' lwts (@usable n') (@wnorm n') (cinit key) (x0, b0) (@wnorm_prob n') (cinit_ok key)); first exact: isteps_ok.
by move=> w k pw; apply: proper_bind => //; exact: pm.
Qed.

Theorem nan_null key ps qs backward x0 xs b0 bs (f : option (seq X * seq 'I_n) -> R) :
  good_mover mv -> proper_mover mv -> size ps = size qs -> size bs = size qs -> size xs = size qs ->
  (forall o, 0 <= f o) ->
  (forall y0 ys c0 cs, size ys = size qs -> size cs = size qs ->
     pot_target G0 Gt qs y0 ys * f (Some (y0 :: ys, c0 :: cs)) = 0) ->
  0 < pot_target G0 Gt qs x0 xs ->
  E (odrop (xkernel rs mv md key x0 xs b0 bs ps qs backward true)) f = 0.
Proof.
move=> mg mp s1 s2 s3 f0 nul pos.
have inv := nan_invariant key backward mg s1 f.
have rhs : traj_sum (size qs) (fun x0 xs (b0 : 'I_n) bs => pot_target G0 Gt qs x0 xs * f (Some (x0 :: xs, b0 :: bs))) = 0.
  rewrite /traj_sum big1 // => y0 _; rewrite big1 // => c0 _; rewrite big1 // => ys _; rewrite big1 // => cs _.
  by rewrite nul // size_tuple.
rewrite rhs in inv.
have tm y0 c0 (ys : (size qs).-tuple X) (cs : (size qs).-tuple 'I_n) :
   0 <= pot_target G0 Gt qs y0 ys * E (odrop (xkernel rs mv md key y0 ys c0 cs ps qs backward true)) f.
  by apply: mulr_ge0; [exact: pot_ge0 | apply: nan_proper; rewrite ?size_tuple].
have z := sum_pos_zero x0 _ inv; rewrite /= in z.
have {}z := z (fun y0 => sumr_ge0 _ (fun c0 _ => sumr_ge0 _ (fun ys _ => sumr_ge0 _ (fun cs _ => tm y0 c0 ys cs)))).
have {}z := sum_pos_zero b0 (fun c0 => sumr_ge0 _ (fun ys _ => sumr_ge0 _ (fun cs _ => tm x0 c0 ys cs))) z.
have sx : size xs == size qs by apply/eqP. have sb : size bs == size qs by apply/eqP.
have {}z := sum_pos_zero (Tuple sx) (fun ys => sumr_ge0 _ (fun cs _ => tm x0 b0 ys cs)) z.
have {}z := sum_pos_zero (Tuple sb) (fun cs => tm x0 b0 (Tuple sx) cs) z.
by move/eqP: z; rewrite mulf_eq0 /= (gt_eqF pos) /= => /eqP.
Qed.

Lemma nan_null_any key ps qs backward x0 xs b0 bs (f : option (seq X * seq 'I_n) -> R) :
  good_mover mv -> proper_mover mv -> size ps = size qs -> size bs = size qs -> size xs = size qs ->
  (forall y0 ys c0 cs, size ys = size qs -> size cs = size qs ->
     pot_target G0 Gt qs y0 ys * f (Some (y0 :: ys, c0 :: cs)) = 0) ->
  0 < pot_target G0 Gt qs x0 xs ->
  E (odrop (xkernel rs mv md key x0 xs b0 bs ps qs backward true)) f = 0.
Proof.
move=> mg mp s1 s2 s3 nul pos.
have z : E (odrop (xkernel rs mv md key x0 xs b0 bs ps qs backward true)) (fun o => `|f o|) = 0.
  apply: nan_null => // y0 ys c0 cs s4 s5.
  by rewrite -[X in X * _](ger0_norm (pot_ge0 qs y0 ys)) -normrM nul // normr0.
have p g := nan_proper key x0 b0 backward mp s1 s2 s3 (f := g).
have u : 0 <= - E (odrop (xkernel rs mv md key x0 xs b0 bs ps qs backward true)) f.
  by have := p (fun o => `|f o| - f o); rewrite E_sub z sub0r; apply=> o; rewrite subr_ge0 ler_norm.
have v : 0 <= E (odrop (xkernel rs mv md key x0 xs b0 bs ps qs backward true)) f.
  by have := p (fun o => `|f o| + f o); rewrite E_add z add0r; apply=> o; rewrite -ler_subl_addr sub0r -normrN ler_norm.
by apply/eqP; rewrite eq_le v andbT -oppr_ge0.
Qed.

Lemma nan_runs ps qs backward keys xs0 bs0 : good_mover mv -> proper_mover mv -> size ps = size qs ->
  (exists x0 xs b0 bs, [/\ xs0 = x0 :: xs, bs0 = b0 :: bs, size xs = size qs, size bs = size qs
                         & 0 < pot_target G0 Gt qs x0 xs]) ->
  Pr (xruns rs mv md ps qs backward keys (xs0, bs0)) (fun o => ~~ isSome o) = 0.
Proof.
move=> mg mp s1; elim: keys xs0 bs0 => [|k ks IH] xs0 bs0 [x0 [xs [b0 [bs [-> -> s2 s3 pos]]]]] //.
rewrite /Pr [xruns _ _ _ _ _ _ _ _]/= E_obind.
apply: nan_null_any => // y0 ys c0 cs s4 s5.
have := pot_ge0 qs y0 ys; rewrite le_eqVlt => /orP [/eqP <-|p]; first by rewrite mul0r.
have := IH (y0 :: ys) (c0 :: cs); rewrite /Pr => H; rewrite [X in _ * X]H ?mulr0 //; by exists y0, ys, c0, cs.
Qed.

End Invariance.
