(** * NanTpProofs: tp_csmc.py leaves targets with zeros invariant (C93). *)
From Coq Require Import Reals Lra FunctionalExtensionality.
From mathcomp Require Import all_ssreflect all_algebra.
From Verif Require Import RInst Prog ProgTheory Resampling Spec ResamplingProofs Csmc CsmcInvariance AuxCsmc SweepTheory AuxProofs.
From Verif Require Import TpCsmc TpProofs.
From Verif Require Import NanCsmc NanSpec NanTheory NanNumbers NanProofs NanFinal NanRw NanRwProofs NanAl NanAlProofs NanLProofs.
From Verif Require Import NanAtp NanAtpProofs.

Set Implicit Arguments.
Unset Strict Implicit.
Unset Printing Implicit Defensive.
Import GRing.Theory Num.Theory Order.TTheory.
Local Open Scope ring_scope.

Section Tp.
Variables (X : finZmodType) (n' : nat) (Q : Type).
Local Notation n := n'.+1.
Local Notation pop := (pop X n').
Local Notation anc := (anc n').
Local Notation lwts := (xlwts n').
Local Notation Z := (X * 'I_n)%type.
Variables (noise0 : X -> R) (noise : Q -> X -> R).
Variables (scale0 : X -> X) (scale : Q -> X -> X).
Variables (pnoise0 : X -> R) (pnoise : Q -> X -> R).
Variables (mean0 : X -> X) (mean : Q -> X -> X -> X).
Variables (prior0 : X -> R) (prior : X -> X -> Q -> R).
Variables (r0 : X -> xnum) (rt : X -> X -> Q -> xnum) (R0 : X -> R) (Rt : X -> X -> Q -> R).
Variables (g0 : X -> X) (gt : X -> X -> Q -> X).
Variables (logH0 : pop -> X -> 'I_n -> R) (logH : Q -> pop -> pop -> X -> 'I_n -> R).
Variables (rs : resampler n) (mv : mover n).
Hypotheses (noise0P : prob_vec noise0) (noiseP : forall q, prob_vec (noise q)).
Hypotheses (pnoise0P : prob_vec pnoise0) (pnoiseP : forall q, prob_vec (pnoise q)).
Hypothesis logH0E : exists S : pop -> R, forall (x : pop) b phi,
  \sum_u noise0 (u - (x b + phi)) * \prod_(i | i != b) pnoise0 (x i - mean0 u)
  = S x * exp (logH0 x phi b).
Hypothesis logHE : forall q (xm : pop), exists S : pop -> R, forall (x : pop) b phi,
  \sum_u noise q (u - (x b + phi)) * \prod_(i | i != b) pnoise q (x i - mean q (xm i) u)
  = S x * exp (logH q xm x phi b).
Hypotheses (r0_log : forall x, log_of (r0 x) (R0 x)) (rt_log : forall x y q, log_of (rt x y q) (Rt x y q)).
Hypothesis rs_good : good_resampler rs.
Local Notation so0 := (fun x => Some (g0 x)).
Local Notation sot := (fun x y q => Some (gt x y q)).
Local Notation md := (xtp_model scale0 scale pnoise0 pnoise mean0 mean prior0 prior r0 rt so0 sot logH0 logH).
Local Notation L0 := (xtp_Gamma_0 prior0 r0).
Local Notation Lt := (xtp_Gamma_t prior rt).
Local Notation G0 := (fun x => exp (prior0 x) * R0 x).
Local Notation Gt := (fun x y q => exp (prior x y q) * Rt x y q).
Local Notation ai := (ai X n' Q).

Lemma L0_log x : log_of (L0 x) (G0 x).
Proof. exact: log_prior. Qed.
Lemma Lt_log x y q : log_of (Lt x y q) (Gt x y q).
Proof. exact: log_prior. Qed.

(** Log-weights before normalisation. *)
Definition V0 (x : pop) : lwts := fun i => xsub (L0 (x i)) (xtp_M0_logpdf scale0 so0 logH0 x i).
Definition Vt (q : Q) (xm xt : pop) : lwts := fun i => xsub (Lt (xm i) (xt i) q) (xtp_Mt_logpdf scale sot logH xm xt (0, q) i).

Lemma low_V0 x i : low (V0 x i).
Proof. by rewrite /V0; have [] := log_dens (L0_log (x i)); case: (L0 (x i)). Qed.

Lemma low_Vt q (xm xt : pop) i : low (Vt q xm xt i).
Proof. by rewrite /Vt; have [] := log_dens (Lt_log (xm i) (xt i) q); case: (Lt _ _ _). Qed.

Lemma dens_V0 (x : pop) i : dens (V0 x i) = G0 (x i) * exp (logH0 x (scale0 (g0 (x i))) i).
Proof.
rewrite /V0; have [<- _] := log_dens (L0_log (x i)).
by case: (L0 (x i)) => [r|||] /=; rewrite ?mul0r // opprK expRD.
Qed.

Lemma dens_Vt q (xm xt : pop) i :
  dens (Vt q xm xt i) = Gt (xm i) (xt i) q * exp (logH q xm xt (scale q (gt (xm i) (xt i) q)) i).
Proof.
rewrite /Vt; have [<- _] := log_dens (Lt_log (xm i) (xt i) q).
by case: (Lt _ _ _) => [r|||] /=; rewrite ?mul0r // opprK expRD.
Qed.

Lemma wnorm_gt0 (l : lwts) i : (forall i, low (l i)) -> 0 < dens (l i) -> 0 < wnorm l i.
Proof.
move=> lo; rewrite dens_wnorm // => d.
have w0 : 0 <= wsum l by apply: sumr_ge0 => j _; exact: dens_ge0.
by move: d; rewrite (le_eqVlt 0 (wsum l)) in w0; case/orP: w0 => [/eqP <-|w0]; rewrite ?mul0r ?ltxx // pmulr_rgt0.
Qed.

(** ** Steps *)
Definition tinit (key : key) : ninit X n' lwts :=
  NInit (fun b x => Draw [::] X noise0 (fun e =>
           do x0 <- atp_M0_rvs n' pnoise0 mean0 (x + scale0 (g0 x) + e) (split key 0); Ret (upd x0 b x)))
        (fun x => xnormalize_log (V0 x)) G0.

Definition tstep (i : ai) : nstep X n' lwts :=
  let q := a_p i in
  NStep (fun w k j => rs (split (a_key i) 1) w k j true)
        (fun xm b x => Draw [::] X (noise q) (fun e =>
           do xt <- atp_Mt_rvs pnoise mean (split (a_key i) 0) xm (x + scale q (gt (xm b) x q) + e, q);
           Ret (upd xt b x)))
        (fun xm xt => xnormalize_log (Vt q xm xt))
        (fun xl l x => finite_weights (xbwd_weights Lt x xl l q))
        (fun x y => Gt x y q).

Local Notation tref := (fun i : ai => (a_x i, a_b i)).

Lemma t_marginal (nu pnu : X -> R) (mn : 'I_n -> X -> X) (d : X -> X) (g : X -> R) (b : 'I_n) (m : X -> prog pop) (F : pop -> R) :
  (forall u, samples_indep (m u) (fun i y => pnu (y - mn i u))) ->
  \sum_x g x * (\sum_e nu e * E (m (x + d x + e)) (fun xt => F (upd xt b x)))
  = \sum_(xt : pop) (g (xt b) *
      \sum_u nu (u - (xt b + d (xt b))) * \prod_(i | i != b) pnu (xt i - mn i u)) * F xt.
Proof.
move=> ind.
transitivity (\sum_u \sum_x (g x * nu (u - (x + d x))) *
    \sum_(z : pop) (\prod_i pnu (z i - mn i u)) * F (upd z b x)).
  rewrite exchange_big; apply: eq_bigr => x _ /=.
  rewrite (sum_shift _ _ (fun u => E (m u) (fun xt => F (upd xt b x)))).
  rewrite mulr_sumr; apply: eq_bigr => u _; rewrite mulrA; congr (_ * _).
  by have [_ _ ->] := ind u.
transitivity (\sum_u \sum_(xt : pop) (g (xt b) * nu (u - (xt b + d (xt b)))) *
     (\prod_(i | i != b) pnu (xt i - mn i u)) * F xt).
  apply: eq_bigr => u _.
  rewrite (@sum_upd_all _ _ (fun i y => pnu (y - mn i u)) b (fun x => g x * nu (u - (x + d x)))) //.
  by have [_ p _] := ind u; exact: (proj2 (p b)).
rewrite exchange_big; apply: eq_bigr => xt _ /=; rewrite mulr_sumr mulr_suml.
by apply: eq_bigr => u _; rewrite -!mulrA.
Qed.

Lemma tinit_ok key : init_ok (@wnorm n') (tinit key).
Proof.
split.
- by move=> x; exact: log_ge0 (L0_log x).
- have [S HS] := logH0E; exists (fun xt => S xt * wsum (V0 xt)) => b F.
  transitivity (\sum_x G0 x * (\sum_e noise0 e *
     E (atp_M0_rvs n' pnoise0 mean0 (x + scale0 (g0 x) + e) (split key 0)) (fun xt => F (upd xt b x)))).
    by apply: eq_bigr => x _; congr (_ * _); apply: eq_bigr => e _; congr (_ * _); rewrite E_bind.
  rewrite (@t_marginal noise0 pnoise0 (fun _ => mean0) (fun x => scale0 (g0 x)) G0 b
     (fun u => atp_M0_rvs n' pnoise0 mean0 u (split key 0))); last by move=> u; exact: M0_indep.
  apply: eq_bigr => xt _; congr (_ * _).
  rewrite HS -[s0_lw _ _]/(xnormalize_log (V0 xt)) wnorm_normalize -[RHS]mulrA -dens_wnorm; last exact: low_V0.
  by rewrite dens_V0 mulrCA.
- move=> b x; split; [exact: (proj1 noise0P)|exact: (proj2 noise0P)|] => e.
  by apply: proper_bind => //; case: (M0_indep n' mean0 pnoise0P (x + scale0 (g0 x) + e) (split key 0)).
- by move=> b x /= e _ ep _; rewrite upd_same.
Qed.

Lemma tstep_ok i : [/\ rs_ok (tstep i), bw_ok (@wnorm n') (tstep i),
  prop_ok (@wnorm n') (tstep i) & forall x y, 0 <= s_gam (tstep i) x y].
Proof.
case: i => q a_xm a_bm1 a_b a_x key; split.
- by move=> w pw; exact: rs_good.
- move=> xl l x; rewrite /= /xbwd_weights.
  have := @bw_law n' (fun k => Lt (xl k) x q) l (fun k => proj2 (log_dens (Lt_log (xl k) x q))).
  rewrite /bw_log.
  have e k : dens (Lt (xl k) x q) = Gt (xl k) x q by have [] := log_dens (Lt_log (xl k) x q).
  case: (finite_weights _) => [v [pv H]|H]; last by move=> k; rewrite -e.
  split=> // j; rewrite -[in RHS]e -H; congr (_ * _); by apply: eq_bigr => k _; rewrite e.
- move=> xm; split.
  + have [S HS] := logHE q xm; exists (fun xt => S xt * wsum (Vt q xm xt)) => b F.
    transitivity (\sum_x Gt (xm b) x q * (\sum_e noise q e *
       E (atp_Mt_rvs pnoise mean (split key 0) xm (x + scale q (gt (xm b) x q) + e, q)) (fun xt => F (upd xt b x)))).
      by apply: eq_bigr => x _; congr (_ * _); apply: eq_bigr => e _; congr (_ * _); rewrite E_bind.
    rewrite (@t_marginal (noise q) (pnoise q) (fun i => mean q (xm i)) (fun x => scale q (gt (xm b) x q))
       (fun x => Gt (xm b) x q) b (fun u => atp_Mt_rvs pnoise mean (split key 0) xm (u, q))); last first.
      by move=> u; exact: Mt_indep.
    apply: eq_bigr => xt _; congr (_ * _).
    rewrite HS -[s_lw _ _ _]/(xnormalize_log (Vt q xm xt)) wnorm_normalize -[RHS]mulrA -dens_wnorm; last exact: low_Vt.
    by rewrite dens_Vt mulrCA.
  + move=> b x; split; [exact: (proj1 (noiseP _))|exact: (proj2 (noiseP _))|] => e.
    by apply: proper_bind => //; case: (Mt_indep mean pnoiseP (split key 0) xm (x + scale q (gt (xm b) x q) + e, q)).
  + by move=> b x /= e _ ep _; rewrite upd_same.
- by move=> x y; exact: log_ge0 (Lt_log x y q).
Qed.

Lemma tsteps_ok l : steps_ok (@wnorm n') (rev (map tstep l)).
Proof.
rewrite -map_rev; elim: (rev l) => [|i l' IH] //=.
by have [] := tstep_ok i.
Qed.

(** ** The forward scan, with the auxiliary variables drawn time after time *)
Definition tbody (c : ('I_n -> xnum) * pop) (i : ai) : prog (option ((('I_n -> xnum) * pop) * (lwts * anc * pop))) :=
  odo A <- on_weights c.1 (fun w => rs (split (a_key i) 1) w (a_bm1 i) (a_b i) true);
  let xm := take_ax c.2 A in
  do xt <- s_prop (tstep i) xm (a_b i) (a_x i);
  let lw := s_lw (tstep i) xm xt in
  Ret (Some ((fun l => xexp (lw l), xt), (lw, A, xt))).

Definition to_xinp (i : ai) (e : X) : xinp X n' (X * Q) Q :=
  XInp (a_x i + scale (a_p i) (gt (a_xm i) (a_x i) (a_p i)) + e, a_p i) (a_p i) (a_bm1 i) (a_b i) (a_key i) (a_x i).

Lemma xinputs_tp qs xm xs b bs key c es : size es = size qs -> size xs = size qs -> size bs = size qs ->
  xinputs (zip (tp_aux scale gt xm xs qs es) qs) qs b bs key c xs
  = [seq to_xinp z.1 z.2 | z <- zip (ains qs xm xs b bs key c) es].
Proof.
elim: qs xm xs b bs c es => [|q qs IH] xm [|x xs] b [|b' bs] c [|e es] //= [s1] [s2] [s3].
by rewrite IH.
Qed.

Fixpoint tpos (l : seq ai) : Prop :=
  match l with
  | i :: l' => [/\ 0 < Gt (a_xm i) (a_x i) (a_p i),
      match l' with j :: _ => a_xm j = a_x i /\ a_bm1 j = a_b i | [::] => True end & tpos l']
  | [::] => True
  end.

Definition tinv (c : ('I_n -> xnum) * pop) (l : seq ai) : Prop :=
  match l with
  | i :: _ => exists lw : lwts, [/\ c.1 = (fun l => xexp (xnormalize_log lw l)), 0 < wnorm lw (a_bm1 i) & c.2 (a_bm1 i) = a_xm i]
  | [::] => True
  end /\ tpos l.

Lemma tains_pos qs xm xs b bs key c : size xs = size qs -> size bs = size qs ->
  0 < pot_path Gt xm xs qs -> tpos (ains qs xm xs b bs key c).
Proof.
elim: qs xm xs b bs c => [|q qs IH] xm [|x xs] b [|b' bs] c //= [s2] [s3] pos.
have g1 := log_ge0 (Lt_log xm x q).
have gp : 0 < Gt xm x q.
  by move: pos; rewrite le_eqVlt in g1; case/orP: g1 => [/eqP <-|//]; rewrite mul0r ltxx.
split=> //; last by apply: IH => //; move: pos; rewrite pmulr_rgt0.
by case: qs xs bs {IH s2 s3 pos} => [|p pp] [|x' xs] [|b'' bs].
Qed.

Lemma E_scan_t c l f : tinv c l ->
  E (oscan (fun c i => Draw [::] X (noise (a_p i)) (fun e => xfwd_body rs (md 0) true c (to_xinp i e))) c l) f
  = E (oscan tbody c l) f.
Proof.
apply: E_oscan_inv => -[w x] i l' [[lw [/= -> wb xb]] [gp nx al]].
have u : usable lw by apply: contraLR wb => nu; rewrite wnorm_bad // ltxx.
have fw : finite_weights (fun l => xexp (xnormalize_log lw l)) = Some (wnorm lw).
  by rewrite finite_normalized finite_normalize usable_normalize u wnorm_normalize.
have kA := rs_keeps (split (a_key i) 1) (a_b i) rs_good (wnorm_prob u) wb.
split.
  move=> g; rewrite /tbody E_obind E_on_weights [(_, _).1]/= fw [LHS]/=.
  under eq_bigr do rewrite E_obind E_on_weights fw.
  rewrite E_sumE; apply: eq_E_almost; apply: almost_imp kA => A /eqP Ab.
  rewrite [RHS]E_bind; apply: eq_bigr => e _; congr (_ * _).
  have -> : take_ax x A (a_b i) = a_xm i by rewrite /take_ax ffunE Ab xb.
  by [].
rewrite /tbody /obind /on_weights fw; apply/almost_bind; apply/almost_bind; apply: almost_imp kA => A /eqP Ab /= e _ /= ep _.
split=> //; case: l' nx al => [|j l'] //= [ex eb] al.
eexists; split; [by []| |by rewrite eb ex upd_same].
rewrite eb; apply: wnorm_gt0; first by move=> m; exact: low_Vt.
rewrite dens_Vt upd_same; apply: mulr_gt0; last exact: expR_gt0.
by rewrite /take_ax ffunE Ab xb.
Qed.

Lemma E_tbody w x i f :
  E (tbody (w, x) i) f
  = if finite_weights w is Some v then
      E (s_rs (tstep i) v (a_bm1 i) (a_b i)) (fun A =>
        let xm := take_ax x A in
        E (s_prop (tstep i) xm (a_b i) (a_x i)) (fun xt =>
          let lw := s_lw (tstep i) xm xt in
          f (Some ((fun l => xexp (lw l), xt), (lw, A, xt)))))
    else f None.
Proof.
rewrite /tbody E_obind E_on_weights [(_, _).1]/=; by case: (finite_weights w) => [v|].
Qed.

Local Notation nfwd key := (nfwd (@usable n') (@wnorm n') (tinit key)).

Lemma tfwd_normalised key z0 ins p :
  always (fun o : option (nhist X n' lwts) => if o is Some h then normalised (nlast h).1 else True)
    (nfwd key z0 (map tstep ins) p).
Proof.
case: ins => [|i ins].
  apply/always_bind; apply: always_true => x; by eexists.
apply/always_bind; apply: always_true => -[h|] //; case: ifP => // _.
apply/always_bind; apply: always_true => A; apply/always_bind; apply: always_true => xt.
by eexists.
Qed.

Lemma E_tscan_nfwd key z0 z ins (F : lwts * pop -> option (('I_n -> xnum) * pop * seq (lwts * anc * pop)) -> R) c :
  (forall h0, F h0 None = c) -> SmcTheory.chained tref (@a_bm1 X n' _) z.2 ins ->
  E (s0_prop (tinit key) z.2 z.1) (fun x0 =>
    E (oscan tbody (fun l => xexp (s0_lw (tinit key) x0 l), x0) ins) (F (s0_lw (tinit key) x0, x0)))
  = E (nfwd key z0 (map tstep (rev ins)) (rev (z :: map tref ins)))
      (fun o => if o is Some h then F h.1 (Some (fun l => xexp ((nlast h).1 l), (nlast h).2, rev h.2)) else c).
Proof.
move=> Fc.
elim/last_ind: ins F Fc => [|ins i IH] F Fc.
  by move=> _; rewrite [RHS]E_bind.
move=> /(SmcTheory.chained_rcons z) [ch bi].
rewrite map_rcons -rcons_cons !rev_rcons [map tstep _]/= [RHS]E_bind.
have hd : (head z0 (rev (z :: map tref ins))).2 = last z.2 [seq (tref j).2 | j <- ins].
  rewrite -nth0 nth_rev //= subn1 /= -last_nth; elim/last_ind: ins {IH ch bi} => [|l a _] //=.
  by rewrite !map_rcons !last_rcons.
pose G (h0 : lwts * pop) (o : option (('I_n -> xnum) * pop * seq (lwts * anc * pop))) :=
  if o is Some co then
    E (tbody co.1 i) (fun o' => F h0 (omap (fun co' => (co'.1, rcons co.2 co'.2)) o'))
  else c.
transitivity (E (s0_prop (tinit key) z.2 z.1) (fun x0 =>
    E (oscan tbody (fun l => xexp (s0_lw (tinit key) x0 l), x0) ins) (G (s0_lw (tinit key) x0, x0)))).
  by apply: eq_E => x0; rewrite E_oscan_rcons; apply: eq_E => -[co|] //; rewrite /G /= Fc.
rewrite IH //.
apply: eq_E_always; apply: always_imp (tfwd_normalised key z0 (rev ins) (rev (z :: map tref ins))) => -[h|] // nz.
rewrite /G; cbn [fst snd]; rewrite E_tbody finite_exp //; case: (boolP (usable _)) => u; last by rewrite /= Fc.
rewrite [RHS]E_bind bi [behead _]/= hd; apply: eq_E => A; rewrite [RHS]E_bind; apply: eq_E => xt.
by rewrite /= rev_cons.
Qed.

Lemma tfwd_size key z0 st p :
  always (fun o : option (nhist X n' lwts) => if o is Some h then size h.2 = size st else True) (nfwd key z0 st p).
Proof.
elim: st p => [|s st IH] p; first by apply/always_bind; apply: always_true.
apply/always_bind; apply: always_imp (IH (behead p)) => -[h|] // sz; case: ifP => // _.
apply/always_bind; apply: always_true => A; apply/always_bind; apply: always_true => xt /=.
by rewrite sz.
Qed.

(** ** The kernel *)
Local Notation ker := (xtp_kernel noise0 noise scale0 scale pnoise0 pnoise mean0 mean prior0 prior r0 rt so0 sot logH0 logH rs mv).

Lemma tains_map (T : Type) (f : nstep X n' lwts -> T) (g : Q -> T) qs xm xs b bs key c :
  (forall i, f (tstep i) = g (a_p i)) -> size xs = size qs -> size bs = size qs ->
  [seq f s | s <- map tstep (ains qs xm xs b bs key c)] = map g qs.
Proof.
move=> fg; elim: qs xm xs b bs c => [|q qs IH] xm [|x xs] b [|b' bs] c // [s2] [s3].
by rewrite [LHS]/= IH // fg.
Qed.

Lemma tains_steps qs xm xs b bs key c xm' xs' b0 bs' :
  size xs = size qs -> size bs = size qs -> size xs' = size qs -> size bs' = size qs ->
  map tstep (ains qs xm xs b bs key c) = map tstep (ains qs xm' xs' b0 bs' key c).
Proof.
elim: qs xm xs b bs c xm' xs' b0 bs' => [|p pp IH] xm [|x xs] b [|b' bs] c xm' [|x' xs'] b0 [|b0' bs'] //=.
by move=> [s1] [s2] [s3] [s4]; congr (_ :: _); apply: IH.
Qed.

Lemma t_kernelE key x0 xs b0 bs qs backward z0 f :
  size xs = size qs -> size bs = size qs -> 0 < pot_target G0 Gt qs x0 xs ->
  let ky := split key 0 in
  E (odrop (ker key x0 xs b0 bs qs backward)) f
  = E (nkern (@usable n') (@wnorm n') (tinit ky) z0 (fun c => split (split ky 2) c)
         (gmv mv (mv_key backward ky (size qs)))
         (rev (map tstep (ains qs x0 xs b0 bs (split ky 1) 0)))
         backward (rev (zip (x0 :: xs) (b0 :: bs))))
      (fun o => f (omap (@out_path X n') o)).
Proof.
move=> s2 s3 pos ky.
have [p0 pp] : 0 < G0 x0 /\ 0 < pot_path Gt x0 xs qs.
  have g1 := log_ge0 (L0_log x0); move: pos; rewrite /pot_target le_eqVlt in g1 *.
  by case/orP: g1 => [/eqP <-|g1]; rewrite ?mul0r ?ltxx // pmulr_rgt0.
set ins := ains _ _ _ _ _ _ _.
pose back (h0 : lwts * pop) outs : R :=
  E (if backward then xbackward_sampling_pass mv Lt (split ky 2) qs (last b0 bs) (h0, outs) true
     else xbackward_scanning_pass mv (split ky 2) (last b0 bs) (h0, outs)) f.
pose FF p := E (oscan tbody (fun l => xexp (s0_lw (tinit ky) p l), p) ins)
     (fun o => if o is Some co then back (s0_lw (tinit ky) p, p) co.2 else f None).
transitivity (E (s0_prop (tinit ky) b0 x0) FF).
  rewrite /odrop E_bind /xtp_kernel E_bind E_normals -/ky.
  apply: eq_bigr => e0 _; congr (_ * _).
  transitivity (E (atp_M0_rvs n' pnoise0 mean0 (x0 + scale0 (g0 x0) + e0) (split ky 0)) (fun y => FF (upd y b0 x0))); last by [].
  transitivity (lsum [seq noise q | q <- qs] (fun es =>
    E (atp_M0_rvs n' pnoise0 mean0 (x0 + scale0 (g0 x0) + e0) (split ky 0)) (fun y =>
     let p := upd y b0 x0 in
     E (oscan (xfwd_body rs (md 0) true) (fun l => xexp (s0_lw (tinit ky) p l), p)
         (xinputs (zip (tp_aux scale gt x0 xs qs es) qs) qs b0 bs (split ky 1) 0 xs))
       (fun o => if o is Some co then back (s0_lw (tinit ky) p, p) co.2 else f None)))).
    apply: eq_lsum => es; rewrite /xatp_aux xgrad_auxE -tp_aux_grad.
    rewrite /xkernel E_obind /xforward_pass [LHS]E_bind; apply: eq_E => y.
    rewrite E_obind; apply: eq_E => -[[c outs]|] //.
    cbv beta iota zeta; cbn [E]; rewrite E_obind /back; clear FF.
    by case: backward {back}; apply: eq_E => -[[r1 r2]|].
  rewrite (lsum_E _ _ (fun y es => _)); apply: eq_E => y; rewrite /FF [RHS]/=.
  rewrite -[RHS]E_scan_t; last first.
    split; last exact: tains_pos.
    rewrite /ins; case: qs xs bs {s2 s3 pos pp back ins FF} => [|q qs] [|x xs] [|b bs] //=.
    exists (V0 (upd y b0 x0)); split=> //; last by rewrite upd_same.
    apply: wnorm_gt0; first by move=> m; exact: low_V0.
    by rewrite dens_V0 upd_same; apply: mulr_gt0 => //; exact: expR_gt0.
  rewrite -[RHS](@lsum_oscan X _ _ _ (fun i : ai => noise (a_p i)) (fun c i e => xfwd_body rs (md 0) true c (to_xinp i e))); last first.
    by move=> i; exact: noiseP.
  rewrite /ins -noise_ains //; apply: eq_lsum_size => es; rewrite size_map => sy.
  by rewrite xinputs_tp // (oscan_map (fun z => to_xinp z.1 z.2)).
have := @E_tscan_nfwd ky z0 (x0, b0) ins
  (fun h0 o => if o is Some co then back h0 co.2 else f None) (f None) (fun _ => erefl).
rewrite /FF {2}/ins ains_ref // => -> //; last exact: ains_chained.
rewrite /nkern [RHS]E_bind map_rev; apply: eq_E_always.
apply: always_imp (tfwd_size ky z0 (rev (map tstep ins)) (rev (zip (x0 :: xs) (b0 :: bs)))) => -[h|] // sz.
have -> : (head z0 (rev (zip (x0 :: xs) (b0 :: bs)))).2 = last b0 bs.
  rewrite -nth0 nth_rev //= subn1 /= -last_nth /=.
  have le : (size bs <= size xs)%N by rewrite s2 s3.
  rewrite -[in RHS](unzip2_zip le).
  by elim: (zip xs bs) (x0) (b0) => [|[a b] l IH] y c //=.
have szq : size h.2 = size qs.
  by rewrite sz size_rev size_map -(size_map tref) ains_ref // size_zip s2 s3 minnn.
transitivity (if usable (nlast h).1 then
   E (gmv mv (mv_key backward ky (size qs)) (wnorm (nlast h).1) (last b0 bs)) (fun k =>
     E (nback (fun c => split (split ky 2) c) (rev (map tstep ins)) backward h k)
       (fun o => f (omap (@out_path X n') o))) else f None); last first.
  by case: ifP => // _; rewrite E_bind.
rewrite /back /mv_key /nback /gmv; clear FF; case: backward {back}.
- have := @E_sampling X n' _ Q (md 0) mv (split ky 2) (rev (map tstep ins)) qs (last b0 bs) h.1 h.2 f sz.
  rewrite [xGammat _]/= => ->; last first.
    rewrite map_rev (@tains_map _ _ (fun q xl l x => finite_weights (xbwd_weights Lt x xl l q))) //.
    by rewrite map_rev.
  rewrite szq -surjective_pairing; case: ifP => // _.
  by rewrite [RHS]E_bind; apply: eq_E => -[k al]; apply: eq_E => -[p|].
- rewrite E_scanning -surjective_pairing; case: ifP => // _.
  by rewrite [RHS]E_bind; apply: eq_E.
Qed.

Lemma tpsum_traj key z0 (sts : seq (nstep X n' lwts)) qs (F : seq Z -> R) :
  [seq s_gam s | s <- sts] = [seq (fun x y => Gt x y q) | q <- qs] ->
  traj_sum (size qs) (fun x0 xs b0 bs => pot_target G0 Gt qs x0 xs * F (rev (zip (x0 :: xs) (b0 :: bs))))
  = psum (tinit key) z0 (rev sts) F.
Proof.
move=> eg; rewrite psum_rev exchange_big /traj_sum.
apply: eq_bigr => x0 _; apply: eq_bigr => b0 _; rewrite (fsum_tuple _ _ eg).
rewrite mulr_sumr; apply: eq_bigr => xs _; rewrite mulr_sumr; apply: eq_bigr => bs _.
by rewrite /pot_target -mulrA.
Qed.

Theorem tp_zeros_invariant key qs backward : good_mover mv ->
  leaves_invariant_result (size qs) (pot_target G0 Gt qs)
    (fun x0 xs b0 bs => odrop (ker key x0 xs b0 bs qs backward)).
Proof.
move=> mg f.
pose z0 : Z := (0, ord0); pose ky := split key 0.
pose xs0 := nseq (size qs) (0 : X); pose bs0 := nseq (size qs) (ord0 : 'I_n).
pose sts := map tstep (ains qs 0 xs0 ord0 bs0 (split ky 1) 0).
have eg : [seq s_gam s | s <- sts] = [seq (fun x y => Gt x y q) | q <- qs].
  by apply: (@tains_map _ _ (fun q x y => Gt x y q)); rewrite ?size_nseq.
transitivity (psum (tinit ky) z0 (rev sts) (fun p =>
   E (nkern (@usable n') (@wnorm n') (tinit ky) z0 (fun c => split (split ky 2) c)
       (gmv mv (mv_key backward ky (size qs))) (rev sts) backward p) (fun o => f (omap (@out_path X n') o)))).
  rewrite -(@tpsum_traj ky z0 sts qs (fun p => E (nkern _ _ _ _ _ _ _ _ p) _)) //.
  apply: eq_bigr => x0 _; apply: eq_bigr => b0 _; apply: eq_bigr => xs _; apply: eq_bigr => bs _.
  have := rw_pot_ge0 L0_log Lt_log qs x0 xs; rewrite le_eqVlt => /orP [/eqP <-|pos]; first by rewrite !mul0r.
  rewrite (@t_kernelE key x0 xs b0 bs qs backward z0) ?size_tuple //.
  by rewrite (@tains_steps qs x0 xs b0 bs (split ky 1) 0 0 xs0 ord0 bs0) ?size_tuple ?size_nseq.
rewrite (nkern_invariant z0 (@wnorm_prob n') (@wnorm_bad n') (tinit_ok ky)); [|exact: tsteps_ok|].
- rewrite -(@tpsum_traj ky z0 sts qs (fun p => f (Some (out_path p)))) //.
  apply: eq_bigr => x0 _; apply: eq_bigr => b0 _; apply: eq_bigr => xs _; apply: eq_bigr => bs _.
  by rewrite /out_path revK unzip1_zip ?unzip2_zip //= ?size_tuple.
- move=> w pw g; rewrite -[RHS](mg (mv_key backward ky (size qs)) w) //.
  by apply: eq_bigr => k _; rewrite /gmv E_bind.
Qed.

End Tp.
