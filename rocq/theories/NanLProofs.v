(** * NanLProofs: l_csmc_f.py on targets with zeros (C92). *)
From Coq Require Import Reals Lra FunctionalExtensionality.
From mathcomp Require Import all_ssreflect all_algebra.
From Verif Require Import RInst Prog ProgTheory Resampling Spec ResamplingProofs Csmc CsmcInvariance AuxCsmc SweepTheory AuxProofs.
From Verif Require Import NanCsmc NanSpec NanTheory NanNumbers NanProofs NanFinal NanRw NanRwProofs NanAl NanAlProofs NanL.

Set Implicit Arguments.
Unset Strict Implicit.
Unset Printing Implicit Defensive.
Import GRing.Theory Num.Theory Order.TTheory.
Local Open Scope ring_scope.

(** ** Scans of bodies that may be without result *)
Lemma lsum_oscan (Y : finType) (C I O : Type) (law : I -> Y -> R) (body : C -> I -> Y -> prog (option (C * O))) c ins f :
  (forall i, prob_vec (law i)) ->
  lsum (map law ins) (fun ys => E (oscan (fun c z => body c z.1 z.2) c (zip ins ys)) f)
  = E (oscan (fun c i => Draw [::] Y (law i) (fun y => body c i y)) c ins) f.
Proof.
move=> lp; elim: ins c f => [|i ins IH] c f //=; apply: eq_bigr => y _; congr (_ * _).
under eq_lsum do rewrite E_obind.
rewrite [RHS]E_bind (lsum_E _ (body c i y) (fun a ys => _)); apply: eq_E => -[[c' o]|] /=.
  by rewrite E_obind -IH; apply: eq_lsum => ys; rewrite E_obind.
by rewrite lsum_const // => nu /List.in_map_iff [j [<- _]].
Qed.

Lemma oscan_map (C I J O : Type) (g : J -> I) (body : C -> I -> prog (option (C * O))) c l f :
  E (oscan body c (map g l)) f = E (oscan (fun c j => body c (g j)) c l) f.
Proof.
elim: l c f => [|j l IH] c f //=; rewrite !E_obind; apply: eq_E => -[[c' o]|] //.
by rewrite !E_obind IH.
Qed.

Lemma E_oscan_inv (C I O : Type) (inv : C -> seq I -> Prop) (body body' : C -> I -> prog (option (C * O))) c ins f :
  (forall c i ins, inv c (i :: ins) -> (forall g, E (body c i) g = E (body' c i) g)
     /\ almost (fun r => if r is Some r then inv r.1 ins else True) (body' c i)) ->
  inv c ins -> E (oscan body c ins) f = E (oscan body' c ins) f.
Proof.
move=> H; elim: ins c f => [|i ins IH] c f //= ic.
rewrite !E_obind; have [-> al] := H _ _ _ ic; apply: eq_E_almost.
by apply: almost_imp al => -[[c' o]|] //= inv'; rewrite !E_obind IH.
Qed.

Lemma wnorm_minus_max n' (l : xlwts n') : (forall i, low (l i)) -> wnorm (xminus_max l) = wnorm l.
Proof. by move=> lo; rewrite -wnorm_normalize norm_minus_max // wnorm_normalize. Qed.

Section L.
Variables (X : finZmodType) (n' : nat) (Q setting : Type).
Local Notation n := n'.+1.
Local Notation pop := (pop X n').
Local Notation anc := (anc n').
Local Notation lwts := (xlwts n').
Local Notation Z := (X * 'I_n)%type.
Local Notation Y := [finType of X * pop].
Variables (noise : setting -> X -> R) (scale : setting -> X -> X) (logH : setting -> pop -> X -> X -> R).
Variables (rs : resampler n) (mv : mover n).
Variables (L0 : X -> xnum) (Lt : X -> X -> Q -> xnum).
Variables (G0 : X -> R) (Gt : X -> X -> Q -> R).
Variables (g0 : X -> X) (gt : X -> X -> Q -> X).
Hypothesis noiseP : forall s, prob_vec (noise s).
Hypothesis hH : forall s, exists S : pop -> R, forall (x : pop) b phi,
  \sum_u noise s (u - (x b + phi)) * \prod_(i | i != b) noise s (x i - u) = S x * exp (logH s x phi (x b)).
Hypotheses (L0_log : forall x, log_of (L0 x) (G0 x)) (Lt_log : forall x y q, log_of (Lt x y q) (Gt x y q)).
Hypothesis rs_good : good_resampler rs.
Local Notation so0 := (fun x => Some (g0 x)).
Local Notation sot := (fun x y q => Some (gt x y q)).
Local Notation V0 := (@xl_Gamma_0_tilde X n' setting scale logH L0 so0).
Local Notation Vt := (@xl_Gamma_t_tilde X n' Q setting scale logH Lt sot).
Local Notation body := (xl_body scale logH rs Lt sot).
Local Notation gen0 := (@mgen0 X n' setting (fun s x => scale s (g0 x))).
Local Notation gen := (@mgen X n' Q setting (fun p xm x => scale p.1 (gt xm x p.2))).
Local Notation law := (@mlaw X n' setting noise).
Local Notation ai := (ai X n' (setting * Q)).
Local Notation to_sinp := (@to_sinp X n' Y (setting * Q) (setting * Q) id gen).

Lemma low_V0 s0 x i : low (V0 s0 x i).
Proof. by rewrite /xl_Gamma_0_tilde /xl_H_phi; have [] := log_dens (L0_log (x i)); case: (L0 (x i)). Qed.

Lemma low_Vt (xm xt : pop) p i : low (Vt xm xt p i).
Proof. by rewrite /xl_Gamma_t_tilde /xl_H_phi; have [] := log_dens (Lt_log (xm i) (xt i) p.2); case: (Lt _ _ _). Qed.

Lemma dens_V0 s0 (x : pop) i : dens (V0 s0 x i) = G0 (x i) * exp (logH s0 x (scale s0 (g0 (x i))) (x i)).
Proof.
rewrite /xl_Gamma_0_tilde /xl_H_phi; have [<- _] := log_dens (L0_log (x i)).
by case: (L0 (x i)) => [r|||] /=; rewrite ?mul0r // expRD.
Qed.

Lemma dens_Vt (xm xt : pop) p i :
  dens (Vt xm xt p i) = Gt (xm i) (xt i) p.2 * exp (logH p.1 xt (scale p.1 (gt (xm i) (xt i) p.2)) (xt i)).
Proof.
rewrite /xl_Gamma_t_tilde /xl_H_phi; have [<- _] := log_dens (Lt_log (xm i) (xt i) p.2).
by case: (Lt _ _ _) => [r|||] /=; rewrite ?mul0r // expRD.
Qed.

(** A density, as sum of weights times normalised weight. *)
Lemma dens_wnorm (l : lwts) i : (forall i, low (l i)) -> dens (l i) = wsum l * wnorm l i.
Proof.
move=> lo; rewrite /wnorm; case: (low_cases lo) => [u|ni].
  by rewrite u mulrCA divff ?mulr1 // lt0r_neq0 // wsum_gt0.
by rewrite ni; case: ifP => // u; rewrite ?mul0r ?mulr0.
Qed.

Lemma wnorm_pos (l : lwts) i : (forall i, low (l i)) -> 0 < dens (l i) -> 0 < wnorm (xminus_max l) i.
Proof.
move=> lo d; rewrite wnorm_minus_max //; move: d; rewrite dens_wnorm // => d.
have w0 : 0 <= wsum l by apply: sumr_ge0 => j _; exact: dens_ge0.
by move: d; rewrite (le_eqVlt 0 (wsum l)) in w0; case/orP: w0 => [/eqP <-|w0]; rewrite ?mul0r ?ltxx // pmulr_rgt0.
Qed.

(** ** Steps *)
Definition linit (s0 : setting) : ninit X n' lwts :=
  NInit (fun b x => Draw [::] Y (law s0) (fun y => Ret (gen0 s0 b x y))) (fun x0 => xminus_max (V0 s0 x0)) G0.

Definition lstep (i : ai) : nstep X n' lwts :=
  NStep (fun w k j => rs (a_key i) w k j true)
        (fun xm b x => Draw [::] Y (law (a_p i).1) (fun y => Ret (gen (a_p i) (xm b) b x y)))
        (fun xm xt => xminus_max (Vt xm xt (a_p i)))
        (fun xl l x => finite_weights (xbwd_weights Lt x xl l (a_p i).2))
        (fun x y => Gt x y (a_p i).2).

Local Notation lref := (fun i : ai => (a_x i, a_b i)).

Lemma l_marginal s (g : X -> R) (d : X -> X) (b : 'I_n) (F : pop -> R) :
  \sum_x g x * (\sum_r law s r * F (mk_pop (x + d x + r.1) r.2 b x))
  = \sum_(xt : pop) (g (xt b) *
      \sum_u noise s (u - (xt b + d (xt b))) * \prod_(i | i != b) noise s (xt i - u)) * F xt.
Proof.
transitivity (\sum_u \sum_x (g x * noise s (u - (x + d x))) *
    \sum_(z : pop) (\prod_i noise s (z i - u)) * F (upd z b x)).
  rewrite exchange_big; apply: eq_bigr => x _ /=.
  rewrite sum_pairs /mlaw /mk_pop /=.
  transitivity (g x * \sum_e noise s e *
     (\sum_(z : pop) (\prod_i noise s (z i - (x + d x + e))) * F (upd z b x))).
    congr (_ * _); apply: eq_bigr => e _; rewrite -sum_iid_shift mulr_sumr.
    by apply: eq_bigr => z _; rewrite mulrA.
  rewrite (sum_shift _ _ (fun u => \sum_(z : pop) (\prod_i noise s (z i - u)) * F (upd z b x))).
  by rewrite mulr_sumr; apply: eq_bigr => u _; rewrite mulrA.
transitivity (\sum_u \sum_(xt : pop) (g (xt b) * noise s (u - (xt b + d (xt b)))) *
     (\prod_(i | i != b) noise s (xt i - u)) * F xt).
  apply: eq_bigr => u _.
  rewrite (@sum_upd_all _ _ (fun _ y => noise s (y - u)) b (fun x => g x * noise s (u - (x + d x)))) //.
  rewrite -(proj2 (noiseP s)) (reindex_inj (addIr u)) /=.
  by apply: eq_bigr => y _; rewrite addrK.
rewrite exchange_big; apply: eq_bigr => xt _ /=; rewrite mulr_sumr mulr_suml.
by apply: eq_bigr => u _; rewrite -!mulrA.
Qed.

Lemma lawP s : prob_vec (law s).
Proof. exact: mlawP. Qed.

Lemma linit_ok s0 : init_ok (@wnorm n') (linit s0).
Proof.
split=> /=.
- by move=> x; exact: log_ge0 (L0_log x).
- have [S HS] := hH s0; exists (fun xt => S xt * wsum (V0 s0 xt)) => b F.
  rewrite (l_marginal s0 G0 (fun x => scale s0 (g0 x))); apply: eq_bigr => xt _; congr (_ * _).
  rewrite HS wnorm_minus_max; last exact: low_V0.
  by rewrite -mulrA -dens_wnorm ?dens_V0 1?mulrCA //; exact: low_V0.
- by move=> b x; split=> //; have [] := lawP s0.
- by move=> b x y _ /=; rewrite /mgen0 /mk_pop upd_same.
Qed.

Lemma lstep_ok i : [/\ rs_ok (lstep i), bw_ok (@wnorm n') (lstep i),
  prop_ok (@wnorm n') (lstep i) & forall x y, 0 <= s_gam (lstep i) x y].
Proof.
case: i => p a_xm a_bm1 a_b a_x key; split=> /=.
- by move=> w pw; exact: rs_good.
- move=> xl l x; rewrite /= /xbwd_weights.
  have := @bw_law n' (fun k => Lt (xl k) x p.2) l (fun k => proj2 (log_dens (Lt_log (xl k) x p.2))).
  rewrite /bw_log.
  have e k : dens (Lt (xl k) x p.2) = Gt (xl k) x p.2 by have [] := log_dens (Lt_log (xl k) x p.2).
  case: (finite_weights _) => [v [pv H]|H]; last by move=> k; rewrite -e.
  split=> // j; rewrite -[in RHS]e -H; congr (_ * _); by apply: eq_bigr => k _; rewrite e.
- move=> xm; split=> /=.
  + have [S HS] := hH p.1; exists (fun xt => S xt * wsum (Vt xm xt p)) => b F.
    rewrite (l_marginal p.1 (fun x => Gt (xm b) x p.2) (fun x => scale p.1 (gt (xm b) x p.2))).
    apply: eq_bigr => xt _; congr (_ * _).
    rewrite HS wnorm_minus_max; last exact: low_Vt.
    by rewrite -mulrA -dens_wnorm ?dens_Vt 1?mulrCA //; exact: low_Vt.
  + by move=> b x; split=> //; have [] := lawP p.1.
  + by move=> b x y _ /=; rewrite /mgen /mk_pop upd_same.
- by move=> x y; exact: log_ge0 (Lt_log x y p.2).
Qed.

Lemma lsteps_ok l : steps_ok (@wnorm n') (rev (map lstep l)).
Proof.
rewrite -map_rev; elim: (rev l) => [|i l' IH] //=.
by have [] := lstep_ok i.
Qed.

(** ** The forward scan, with the shift of the proposals read off the ancestors *)
Definition lbody (c : ('I_n -> xnum) * pop) (i : ai) : prog (option ((('I_n -> xnum) * pop) * (lwts * anc * pop))) :=
  odo A <- on_weights c.1 (fun w => rs (a_key i) w (a_bm1 i) (a_b i) true);
  let xm := take_ax c.2 A in
  do xt <- s_prop (lstep i) xm (a_b i) (a_x i);
  let lw := s_lw (lstep i) xm xt in
  Ret (Some ((xnormalize lw, xt), (lw, A, xt))).

Fixpoint lpos (l : seq ai) : Prop :=
  match l with
  | i :: l' => [/\ 0 < Gt (a_xm i) (a_x i) (a_p i).2,
      match l' with j :: _ => a_xm j = a_x i /\ a_bm1 j = a_b i | [::] => True end & lpos l']
  | [::] => True
  end.

Definition linv (c : ('I_n -> xnum) * pop) (l : seq ai) : Prop :=
  match l with
  | i :: _ => exists lw : lwts, [/\ c.1 = xnormalize lw, 0 < wnorm lw (a_bm1 i) & c.2 (a_bm1 i) = a_xm i]
  | [::] => True
  end /\ lpos l.

Lemma ains_pos ss qs xm xs b bs key c : size ss = size qs -> size xs = size qs -> size bs = size qs ->
  0 < pot_path Gt xm xs qs -> lpos (ains (zip ss qs) xm xs b bs key c).
Proof.
elim: qs ss xm xs b bs c => [|q qs IH] [|s ss] xm [|x xs] b [|b' bs] c //= [s1] [s2] [s3] pos.
have g1 := log_ge0 (Lt_log xm x q).
have gp : 0 < Gt xm x q.
  by move: pos; rewrite le_eqVlt in g1; case/orP: g1 => [/eqP <-|//]; rewrite mul0r ltxx.
split=> //; last by apply: IH => //; move: pos; rewrite pmulr_rgt0.
by case: (zip ss qs) xs bs {IH s2 s3 pos} => [|p pp] [|x' xs] [|b'' bs].
Qed.

Lemma E_scan_l c l f : linv c l ->
  E (oscan (fun c i => Draw [::] Y (law (a_p i).1) (fun y => body c (to_sinp i y))) c l) f
  = E (oscan lbody c l) f.
Proof.
apply: E_oscan_inv => -[w x] i l' [[lw [/= -> wb xb]] [gp nx al]].
have u : usable lw by apply: contraLR wb => nu; rewrite wnorm_bad // ltxx.
have fw : finite_weights (xnormalize lw) = Some (wnorm lw) by rewrite finite_normalize u.
have kA := rs_keeps (a_key i) (a_b i) rs_good (wnorm_prob u) wb.
split.
  move=> g; rewrite /lbody E_obind E_on_weights /= fw.
  transitivity (E (rs (a_key i) (wnorm lw) (a_bm1 i) (a_b i) true) (fun A =>
     \sum_y law (a_p i).1 y * g (Some (let xm := take_ax x A in let xt := gen (a_p i) (a_xm i) (a_b i) (a_x i) y in
        let lw := xminus_max (Vt xm xt (a_p i)) in ((xnormalize lw, xt), (lw, A, xt)))))).
    under eq_bigr do rewrite E_obind E_on_weights fw.
    by rewrite E_sumE; apply: eq_E => A; apply: eq_bigr => y _.
  apply: eq_E_almost; apply: almost_imp kA => A /eqP Ab /=.
  by apply: eq_bigr => y _; rewrite /take_ax ffunE Ab xb.
rewrite /lbody /obind /on_weights fw; apply/almost_bind; apply/almost_bind; apply: almost_imp kA => A /eqP Ab /= y _.
split=> //; case: l' nx al => [|j l'] //= [ex eb] al; exists (xminus_max (Vt (take_ax x A) (gen (a_p i) (take_ax x A (a_b i)) (a_b i) (a_x i) y) (a_p i))).
have k : gen (a_p i) (take_ax x A (a_b i)) (a_b i) (a_x i) y (a_b i) = a_x i by rewrite /mgen /mk_pop upd_same.
split=> //; last by rewrite eb ex k.
rewrite eb; apply: wnorm_pos; first by move=> m; exact: low_Vt.
rewrite dens_Vt k; apply: mulr_gt0; last exact: expR_gt0.
by rewrite /take_ax ffunE Ab xb.
Qed.

Lemma E_lbody w x i f :
  E (lbody (w, x) i) f
  = if finite_weights w is Some v then
      E (s_rs (lstep i) v (a_bm1 i) (a_b i)) (fun A =>
        let xm := take_ax x A in
        E (s_prop (lstep i) xm (a_b i) (a_x i)) (fun xt =>
          let lw := s_lw (lstep i) xm xt in
          f (Some ((xnormalize lw, xt), (lw, A, xt)))))
    else f None.
Proof.
rewrite /lbody E_obind E_on_weights /=; case: (finite_weights w) => [v|] //=.
Qed.

Local Notation nfwd s0 := (nfwd (@usable n') (@wnorm n') (linit s0)).

Lemma E_lscan_nfwd s0 z0 z ins (F : lwts * pop -> option (('I_n -> xnum) * pop * seq (lwts * anc * pop)) -> R) c :
  (forall h0, F h0 None = c) -> SmcTheory.chained lref (@a_bm1 X n' _) z.2 ins ->
  E (s0_prop (linit s0) z.2 z.1) (fun x0 =>
    E (oscan lbody (xnormalize (s0_lw (linit s0) x0), x0) ins) (F (s0_lw (linit s0) x0, x0)))
  = E (nfwd s0 z0 (map lstep (rev ins)) (rev (z :: map lref ins)))
      (fun o => if o is Some h then F h.1 (Some (xnormalize (nlast h).1, (nlast h).2, rev h.2)) else c).
Proof.
move=> Fc.
elim/last_ind: ins F Fc => [|ins i IH] F Fc; first by [].
move=> /(SmcTheory.chained_rcons z) [ch bi].
rewrite map_rcons -rcons_cons !rev_rcons [RHS]/= [RHS]E_bind.
have hd : (head z0 (rev (z :: map lref ins))).2 = last z.2 [seq (lref j).2 | j <- ins].
  rewrite -nth0 nth_rev //= subn1 /= -last_nth; elim/last_ind: ins {IH ch bi} => [|l a _] //=.
  by rewrite !map_rcons !last_rcons.
pose G (h0 : lwts * pop) (o : option (('I_n -> xnum) * pop * seq (lwts * anc * pop))) :=
  if o is Some co then
    E (lbody co.1 i) (fun o' => F h0 (omap (fun co' => (co'.1, rcons co.2 co'.2)) o'))
  else c.
transitivity (E (s0_prop (linit s0) z.2 z.1) (fun x0 =>
    E (oscan lbody (xnormalize (s0_lw (linit s0) x0), x0) ins) (G (s0_lw (linit s0) x0, x0)))).
  by apply: eq_E => x0; rewrite E_oscan_rcons; apply: eq_E => -[co|] //=; rewrite Fc.
rewrite IH //.
apply: eq_E => -[h|] //=.
rewrite E_lbody finite_normalize; case: (boolP (usable _)) => u /=; last by rewrite Fc.
rewrite [RHS]E_bind bi hd; apply: eq_E => A; rewrite /=; apply: eq_bigr => y _ /=.
by rewrite rev_cons.
Qed.

Lemma lfwd_size s0 z0 st p :
  always (fun o : option (nhist X n' lwts) => if o is Some h then size h.2 = size st else True) (nfwd s0 z0 st p).
Proof.
elim: st p => [|s st IH] p; first by [].
apply/always_bind; apply: always_imp (IH (behead p)) => -[h|] // sz; case: ifP => // _.
apply/always_bind; apply: always_true => A; apply/always_bind; apply: always_true => xt /=.
by rewrite sz.
Qed.

(** ** The kernel *)
Local Notation ker := (xl_kernel noise scale logH rs mv L0 Lt so0 sot).
Local Notation sweep := (xl_sweep scale logH rs mv L0 Lt so0 sot).

(** Only its potential is used, by the backward pass. *)
Definition l_back_model : xmodel X n' unit Q :=
  XModel (fun _ => Ret [ffun=> 0]) (fun _ _ => NaN) (fun _ => NaN) (fun _ xm _ => Ret xm) (fun _ _ _ _ => NaN) Lt.

Lemma lains_map (T : Type) (f : nstep X n' lwts -> T) (g : Q -> T) ss qs xm xs b bs key c :
  (forall i, f (lstep i) = g (a_p i).2) -> size ss = size qs -> size xs = size qs -> size bs = size qs ->
  [seq f s | s <- map lstep (ains (zip ss qs) xm xs b bs key c)] = map g qs.
Proof.
move=> fg; elim: qs ss xm xs b bs c => [|q qs IH] [|s ss] xm [|x xs] b [|b' bs] c //= [s1] [s2] [s3].
by rewrite IH // fg.
Qed.

Lemma lains_steps (pp : seq (setting * Q)) xm xs b bs key c xm' xs' b0 bs' :
  size xs = size pp -> size bs = size pp -> size xs' = size pp -> size bs' = size pp ->
  map lstep (ains pp xm xs b bs key c) = map lstep (ains pp xm' xs' b0 bs' key c).
Proof.
elim: pp xm xs b bs c xm' xs' b0 bs' => [|p pp IH] xm [|x xs] b [|b' bs] c xm' [|x' xs'] b0 [|b0' bs'] //=.
by move=> [s1] [s2] [s3] [s4]; congr (_ :: _); apply: IH.
Qed.

(** The kernel, its noise drawn time after time. *)
Lemma l_E key x0 xs b0 bs s0 ss qs backward f :
  size ss = size qs -> size xs = size qs -> size bs = size qs ->
  E (odrop (ker key x0 xs b0 bs s0 ss qs backward)) f
  = \sum_r law s0 r * lsum [seq law p.1 | p <- zip ss qs] (fun ys =>
      E (odrop (sweep key b0 bs (gen0 s0 b0 x0 r) (gpops gen (zip ss qs) x0 xs bs ys) s0 ss qs backward)) f).
Proof.
move=> sz sx sb; have spp : size (zip ss qs) = size qs by rewrite size_zip sz minnn.
transitivity (E (do (e0, es) <- normals (split key 1) (noise s0) [seq noise p.1 | p <- zip ss qs];
  do (p0, ps) <- normals (split key 0) (iid (noise s0)) [seq @iid X n' (noise p.1) | p <- zip ss qs];
  odrop (sweep key b0 bs (mk_pop (x0 + scale s0 (g0 x0) + e0) p0 b0 x0)
    (mk_pops (grad_aux scale gt x0 xs ss qs es) ps bs xs) s0 ss qs backward)) f).
  rewrite /odrop E_bind /xl_kernel [LHS]E_bind [RHS]E_bind (fst_noise noise sz) (@fst_iid X n' Q setting noise ss qs sz).
  apply: eq_E => -[e0 es]; cbv beta iota; rewrite /xal_aux xgrad_auxE [LHS]E_bind [RHS]E_bind.
  by apply: eq_E => -[p0 ps]; cbv beta iota; rewrite [RHS]E_bind.
apply: E_two_normals => e0 es p0 ps se sp.
by rewrite l_pops // ?se ?sp.
Qed.

Lemma l_kernelE key x0 xs b0 bs s0 ss qs backward z0 f :
  size ss = size qs -> size xs = size qs -> size bs = size qs -> 0 < pot_target G0 Gt qs x0 xs ->
  E (odrop (ker key x0 xs b0 bs s0 ss qs backward)) f
  = E (nkern (@usable n') (@wnorm n') (linit s0) z0 (fun c => split (split key 2) c)
         (gmv mv (mv_key backward key (size qs)))
         (rev (map lstep (ains (zip ss qs) x0 xs b0 bs key 3)))
         backward (rev (zip (x0 :: xs) (b0 :: bs))))
      (fun o => f (omap (@out_path X n') o)).
Proof.
move=> s1 s2 s3 pos; rewrite l_E //.
have spp : size (zip ss qs) = size qs by rewrite size_zip s1 minnn.
have [p0 pp] : 0 < G0 x0 /\ 0 < pot_path Gt x0 xs qs.
  have g1 := log_ge0 (L0_log x0); move: pos; rewrite /pot_target le_eqVlt in g1 *.
  by case/orP: g1 => [/eqP <-|g1]; rewrite ?mul0r ?ltxx // pmulr_rgt0.
set ins := ains _ _ _ _ _ _ _.
pose back (h0 : lwts * pop) outs : R :=
  E (if backward then xbackward_sampling_pass mv Lt (split key 2) qs (last b0 bs) (h0, outs) true
     else xbackward_scanning_pass mv (split key 2) (last b0 bs) (h0, outs)) f.
transitivity (E (s0_prop (linit s0) b0 x0) (fun p0 =>
   E (oscan lbody (xnormalize (s0_lw (linit s0) p0), p0) ins)
     (fun o => if o is Some co then back (s0_lw (linit s0) p0, p0) co.2 else f None))).
  apply: eq_bigr => y0 _; congr (_ * _).
  have k0 : gen0 s0 b0 x0 y0 b0 = x0 by rewrite /mgen0 /mk_pop upd_same.
  rewrite -[RHS]E_scan_l; last first.
    split; last exact: ains_pos.
    rewrite /ins; case: (zip ss qs) xs bs {s2 s3 pos pp back ins} => [|p pp'] [|x xs] [|b bs] //=.
    exists (xminus_max (V0 s0 (gen0 s0 b0 x0 y0))); split=> //.
    apply: wnorm_pos; first by move=> m; exact: low_V0.
    by rewrite dens_V0 k0; apply: mulr_gt0 => //; exact: expR_gt0.
  rewrite -[RHS](@lsum_oscan Y _ _ _ (fun i : ai => law (a_p i).1) (fun c i y => body c (to_sinp i y))); last first.
    by move=> i; exact: lawP.
  have -> : [seq law (a_p i).1 | i <- ins] = [seq law p.1 | p <- zip ss qs].
    by rewrite /ins -(@law_ains X n' Y (setting * Q) (fun p => law p.1) (zip ss qs)) ?spp.
  apply: eq_lsum_size => ys; rewrite size_map => sy.
  rewrite /odrop E_bind /xl_sweep E_obind /xl_forward E_obind.
  have := @sinputs_ains X n' Y (setting * Q) (setting * Q) id gen (zip ss qs) x0 xs b0 bs key 3 ys sy.
  rewrite map_id spp => -> //.
  rewrite (oscan_map (fun z => to_sinp z.1 z.2)); apply: eq_E => -[[c outs]|] //=.
  by rewrite E_obind /back; apply: eq_E => -[[r1 r2]|].
have := @E_lscan_nfwd s0 z0 (x0, b0) ins
  (fun h0 o => if o is Some co then back h0 co.2 else f None) (f None) (fun _ => erefl).
rewrite {2}/ins ains_ref ?spp // => -> //; last exact: ains_chained.
rewrite /nkern [RHS]E_bind map_rev; apply: eq_E_always.
apply: always_imp (lfwd_size s0 z0 (rev (map lstep ins)) (rev (zip (x0 :: xs) (b0 :: bs)))) => -[h|] // sz /=.
have -> : (head z0 (rev (zip (x0 :: xs) (b0 :: bs)))).2 = last b0 bs.
  rewrite -nth0 nth_rev //= subn1 /= -last_nth /=.
  have le : (size bs <= size xs)%N by rewrite s2 s3.
  rewrite -[in RHS](unzip2_zip le).
  by elim: (zip xs bs) (x0) (b0) => [|[a b] l IH] y c //=.
have szq : size h.2 = size qs.
  by rewrite sz size_rev size_map -(size_map lref) ains_ref ?spp // size_zip s2 s3 minnn.
transitivity (if usable (nlast h).1 then
   E (gmv mv (mv_key backward key (size qs)) (wnorm (nlast h).1) (last b0 bs)) (fun k =>
     E (nback (fun c => split (split key 2) c) (rev (map lstep ins)) backward h k)
       (fun o => f (omap (@out_path X n') o))) else f None); last first.
  by case: ifP => // _; rewrite E_bind.
rewrite /back /mv_key /nback /gmv; case: backward {back}.
- have := @E_sampling X n' unit Q l_back_model mv (split key 2) (rev (map lstep ins)) qs (last b0 bs) h.1 h.2 f sz.
  rewrite /= => ->; last first.
    rewrite map_rev (@lains_map _ _ (fun q xl l x => finite_weights (xbwd_weights Lt x xl l q))) //.
    by rewrite map_rev.
  rewrite szq -surjective_pairing; case: ifP => // _.
  by rewrite [RHS]E_bind; apply: eq_E => -[k al] /=; apply: eq_E => -[p|].
- rewrite E_scanning -surjective_pairing; case: ifP => // _.
  by rewrite [RHS]E_bind; apply: eq_E.
Qed.

Lemma lpsum_traj s0 z0 (sts : seq (nstep X n' lwts)) qs (F : seq Z -> R) :
  [seq s_gam s | s <- sts] = [seq (fun x y => Gt x y q) | q <- qs] ->
  traj_sum (size qs) (fun x0 xs b0 bs => pot_target G0 Gt qs x0 xs * F (rev (zip (x0 :: xs) (b0 :: bs))))
  = psum (linit s0) z0 (rev sts) F.
Proof.
move=> eg; rewrite psum_rev exchange_big /traj_sum.
apply: eq_bigr => x0 _; apply: eq_bigr => b0 _; rewrite (fsum_tuple _ _ eg).
rewrite mulr_sumr; apply: eq_bigr => xs _; rewrite mulr_sumr; apply: eq_bigr => bs _.
by rewrite /pot_target -mulrA.
Qed.

Lemma l_pot_ge0 qs x0 (xs : seq X) : 0 <= pot_target G0 Gt qs x0 xs.
Proof. exact: (rw_pot_ge0 L0_log Lt_log). Qed.

Theorem l_invariant key s0 ss qs backward : good_mover mv -> size ss = size qs ->
  leaves_invariant_result (size qs) (pot_target G0 Gt qs)
    (fun x0 xs b0 bs => odrop (ker key x0 xs b0 bs s0 ss qs backward)).
Proof.
move=> mg s1 f.
have spp : size (zip ss qs) = size qs by rewrite size_zip s1 minnn.
pose z0 : Z := (0, ord0).
pose xs0 := nseq (size qs) (0 : X); pose bs0 := nseq (size qs) (ord0 : 'I_n).
pose sts := map lstep (ains (zip ss qs) 0 xs0 ord0 bs0 key 3).
have eg : [seq s_gam s | s <- sts] = [seq (fun x y => Gt x y q) | q <- qs].
  by apply: (@lains_map _ _ (fun q x y => Gt x y q)); rewrite ?size_nseq.
transitivity (psum (linit s0) z0 (rev sts) (fun p =>
   E (nkern (@usable n') (@wnorm n') (linit s0) z0 (fun c => split (split key 2) c)
       (gmv mv (mv_key backward key (size qs))) (rev sts) backward p) (fun o => f (omap (@out_path X n') o)))).
  rewrite -(@lpsum_traj s0 z0 sts qs (fun p => E (nkern _ _ _ _ _ _ _ _ p) _)) //.
  apply: eq_bigr => x0 _; apply: eq_bigr => b0 _; apply: eq_bigr => xs _; apply: eq_bigr => bs _.
  have := l_pot_ge0 qs x0 xs; rewrite le_eqVlt => /orP [/eqP <-|pos]; first by rewrite !mul0r.
  rewrite (@l_kernelE key x0 xs b0 bs s0 ss qs backward z0) ?size_tuple //.
  by rewrite (@lains_steps (zip ss qs) x0 xs b0 bs key 3 0 xs0 ord0 bs0) ?size_tuple ?size_nseq ?spp.
rewrite (nkern_invariant z0 (@wnorm_prob n') (@wnorm_bad n') (linit_ok s0)); [|exact: lsteps_ok|].
- rewrite -(@lpsum_traj s0 z0 sts qs (fun p => f (Some (out_path p)))) //.
  apply: eq_bigr => x0 _; apply: eq_bigr => b0 _; apply: eq_bigr => xs _; apply: eq_bigr => bs _.
  by rewrite /out_path revK unzip1_zip ?unzip2_zip //= ?size_tuple.
- move=> w pw g; rewrite -[RHS](mg (mv_key backward key (size qs)) w) //.
  by apply: eq_bigr => k _; rewrite /gmv E_bind.
Qed.

Lemma l_proper key x0 xs b0 bs s0 ss qs backward : proper_mover mv ->
  size ss = size qs -> size xs = size qs -> size bs = size qs -> 0 < pot_target G0 Gt qs x0 xs ->
  forall f, (forall o, 0 <= f o) -> 0 <= E (odrop (ker key x0 xs b0 bs s0 ss qs backward)) f.
Proof.
move=> pm s1 s2 s3 pos f f0; rewrite (@l_kernelE key x0 xs b0 bs s0 ss qs backward (x0, b0)) //.
apply: E_ge0 => [|o]; last exact: f0.
apply: (@nkern_proper X n' lwts (@usable n') (@wnorm n') (linit s0) (x0, b0) (@wnorm_prob n') (linit_ok s0)); first exact: lsteps_ok.
by move=> w k pw; apply: proper_bind => //; exact: pm.
Qed.

Lemma l_null0 key s0 ss qs backward x0 xs b0 bs (f : option (seq X * seq 'I_n) -> R) :
  good_mover mv -> proper_mover mv -> size ss = size qs -> size xs = size qs -> size bs = size qs ->
  (forall o, 0 <= f o) ->
  (forall y0 ys c0 cs, size ys = size qs -> size cs = size qs ->
     pot_target G0 Gt qs y0 ys * f (Some (y0 :: ys, c0 :: cs)) = 0) ->
  0 < pot_target G0 Gt qs x0 xs ->
  E (odrop (ker key x0 xs b0 bs s0 ss qs backward)) f = 0.
Proof.
move=> mg mp s1 s3 s2 f0 nul pos.
have inv := l_invariant key s0 backward mg s1 f.
have rhs : traj_sum (size qs) (fun x0 xs (b0 : 'I_n) bs => pot_target G0 Gt qs x0 xs * f (Some (x0 :: xs, b0 :: bs))) = 0.
  rewrite /traj_sum big1 // => y0 _; rewrite big1 // => c0 _; rewrite big1 // => ys _; rewrite big1 // => cs _.
  by rewrite nul // size_tuple.
rewrite rhs in inv.
have tm y0 c0 (ys : (size qs).-tuple X) (cs : (size qs).-tuple 'I_n) :
   0 <= pot_target G0 Gt qs y0 ys * E (odrop (ker key y0 ys c0 cs s0 ss qs backward)) f.
  have := l_pot_ge0 qs y0 ys; rewrite le_eqVlt => /orP [/eqP <-|p]; first by rewrite mul0r.
  by apply: mulr_ge0; [exact: ltW | apply: l_proper; rewrite ?size_tuple].
have z := sum_pos_zero x0 _ inv; rewrite /= in z.
have {}z := z (fun y0 => sumr_ge0 _ (fun c0 _ => sumr_ge0 _ (fun ys _ => sumr_ge0 _ (fun cs _ => tm y0 c0 ys cs)))).
have {}z := sum_pos_zero b0 (fun c0 => sumr_ge0 _ (fun ys _ => sumr_ge0 _ (fun cs _ => tm x0 c0 ys cs))) z.
have sx : size xs == size qs by apply/eqP. have sb : size bs == size qs by apply/eqP.
have {}z := sum_pos_zero (Tuple sx) (fun ys => sumr_ge0 _ (fun cs _ => tm x0 b0 ys cs)) z.
have {}z := sum_pos_zero (Tuple sb) (fun cs => tm x0 b0 (Tuple sx) cs) z.
by move/eqP: z; rewrite mulf_eq0 /= (gt_eqF pos) /= => /eqP.
Qed.

Lemma l_null key s0 ss qs backward x0 xs b0 bs (f : option (seq X * seq 'I_n) -> R) :
  good_mover mv -> proper_mover mv -> size ss = size qs -> size xs = size qs -> size bs = size qs ->
  (forall y0 ys c0 cs, size ys = size qs -> size cs = size qs ->
     pot_target G0 Gt qs y0 ys * f (Some (y0 :: ys, c0 :: cs)) = 0) ->
  0 < pot_target G0 Gt qs x0 xs ->
  E (odrop (ker key x0 xs b0 bs s0 ss qs backward)) f = 0.
Proof.
move=> mg mp s1 s2 s3 nul pos.
have z : E (odrop (ker key x0 xs b0 bs s0 ss qs backward)) (fun o => `|f o|) = 0.
  apply: l_null0 => // y0 ys c0 cs s4 s5.
  by rewrite -[X in X * _](ger0_norm (l_pot_ge0 qs y0 ys)) -normrM nul // normr0.
have p g := @l_proper key x0 xs b0 bs s0 ss qs backward mp s1 s2 s3 pos g.
have u : 0 <= - E (odrop (ker key x0 xs b0 bs s0 ss qs backward)) f.
  by have := p (fun o => `|f o| - f o); rewrite E_sub z sub0r; apply=> o; rewrite subr_ge0 ler_norm.
have v : 0 <= E (odrop (ker key x0 xs b0 bs s0 ss qs backward)) f.
  by have := p (fun o => `|f o| + f o); rewrite E_add z add0r; apply=> o; rewrite -ler_subl_addr sub0r -normrN ler_norm.
by apply/eqP; rewrite eq_le v andbT -oppr_ge0.
Qed.

Lemma l_has_result key s0 ss qs backward x0 xs b0 bs :
  good_mover mv -> proper_mover mv -> size ss = size qs -> size xs = size qs -> size bs = size qs ->
  0 < pot_target G0 Gt qs x0 xs ->
  Pr (odrop (ker key x0 xs b0 bs s0 ss qs backward))
     (fun o => if o is Some (y0 :: ys, _) then pot_target G0 Gt qs y0 ys == 0 else true) = 0.
Proof.
move=> mg mp s1 s2 s3 pos; apply: l_null pos => // y0 ys c0 cs _ _ /=.
by case: eqP => [->|_]; rewrite ?mul0r ?mulr0.
Qed.

Lemma l_runs_result s0 ss qs backward keys x0 xs b0 bs :
  good_mover mv -> proper_mover mv -> size ss = size qs -> size xs = size qs -> size bs = size qs ->
  0 < pot_target G0 Gt qs x0 xs ->
  Pr (xl_runs noise scale logH rs mv L0 Lt so0 sot s0 ss qs backward keys (x0 :: xs, b0 :: bs)) (fun o => ~~ isSome o) = 0.
Proof.
move=> mg mp s1; elim: keys x0 xs b0 bs => [|k ks IH] x0 xs b0 bs s2 s3 pos //.
rewrite /Pr [xl_runs _ _ _ _ _ _ _ _ _ _ _ _ _ _ _]/= E_obind.
pose h o : R := if o is Some s then E (xl_runs noise scale logH rs mv L0 Lt so0 sot s0 ss qs backward ks s) (fun o => (~~ isSome o)%:R) else 1.
have := @l_null k s0 ss qs backward x0 xs b0 bs h mg mp s1 s2 s3.
rewrite /odrop E_bind => <- //.
  by apply: eq_E => -[r|].
move=> y0 ys c0 cs s4 s5.
have := l_pot_ge0 qs y0 ys; rewrite le_eqVlt => /orP [/eqP <-|p]; first by rewrite mul0r.
by have := IH y0 ys c0 cs s4 s5 p; rewrite /Pr => H; rewrite /h H mulr0.
Qed.

End L.
