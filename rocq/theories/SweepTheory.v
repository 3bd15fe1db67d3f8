(** * SweepTheory: kernels that draw all auxiliary variables and proposals first,
    then run a conditional SMC sweep on them (rw_csmc, l_csmc_f, al_csmc_f). *)
From Coq Require Import Reals FunctionalExtensionality.
From mathcomp Require Import all_ssreflect all_algebra.
From Verif Require Import RInst Prog ProgTheory Resampling Spec ResamplingProofs.
From Verif Require Import KillingProofs MoveProofs ResamplingSpecs Csmc SmcTheory BackwardProofs.
From Verif Require Import CsmcInvariance AuxCsmc.

Set Implicit Arguments.
Unset Strict Implicit.
Unset Printing Implicit Defensive.
Import GRing.Theory Num.Theory Order.TTheory.
Local Open Scope ring_scope.

Lemma sum_pairs (A B : finType) (F : A * B -> R) : \sum_r F r = \sum_a \sum_b F (a, b).
Proof. by rewrite pair_bigA /=; apply: eq_bigr => -[a b]. Qed.

(** ** Joint draws of independent entries *)
Section Lsum.
Variable Y : finType.

Fixpoint lsum (nus : seq (Y -> R)) (g : seq Y -> R) : R :=
  if nus is nu :: nus' then \sum_y nu y * lsum nus' (fun ys => g (y :: ys)) else g [::].

Lemma eq_lsum nus g h : g =1 h -> lsum nus g = lsum nus h.
Proof.
elim: nus g h => [|nu nus IH] g h gh /=; first exact: gh.
by apply: eq_bigr => y _; congr (_ * _); apply: IH => ys.
Qed.

Lemma eq_lsum_size nus g h : (forall ys, size ys = size nus -> g ys = h ys) -> lsum nus g = lsum nus h.
Proof.
elim: nus g h => [|nu nus IH] g h gh /=; first exact: gh.
by apply: eq_bigr => y _; congr (_ * _); apply: IH => ys sz; apply: gh; rewrite /= sz.
Qed.

Lemma lsum_E nus A (m : prog A) (g : A -> seq Y -> R) :
  lsum nus (fun ys => E m (fun a => g a ys)) = E m (fun a => lsum nus (g a)).
Proof.
elim: nus g => [|nu nus IH] g //=.
rewrite -E_sumE; apply: eq_bigr => y _; congr (_ * _).
exact: (IH (fun a ys => g a (y :: ys))).
Qed.

Lemma lsum_sum nus (B : finType) (p : B -> R) (g : B -> seq Y -> R) :
  lsum nus (fun ys => \sum_b p b * g b ys) = \sum_b p b * lsum nus (g b).
Proof. exact: (lsum_E nus (draw [::] p) g). Qed.

Lemma lsum_scale nus c g : lsum nus (fun ys => c * g ys) = c * lsum nus g.
Proof.
elim: nus g => [|nu nus IH] g //=; rewrite mulr_sumr; apply: eq_bigr => y _.
by rewrite IH mulrCA.
Qed.

Lemma lsum_const nus c : (forall nu, List.In nu nus -> prob_vec nu) -> lsum nus (fun _ => c) = c.
Proof.
elim: nus => [|nu nus IH] //= pv; rewrite -mulr_suml IH.
  by rewrite (proj2 (pv nu (or_introl erefl))) mul1r.
by move=> m im; apply: pv; right.
Qed.

Lemma E_normals key nu0 nus f :
  E (normals key nu0 nus) f = \sum_y nu0 y * lsum nus (fun ys => f (y, ys)).
Proof.
rewrite /normals E_bind E_draw.
transitivity (\sum_(y : Y) nu0 y * \sum_(t : (size nus).-tuple Y)
   (\prod_(i < size nus) nth nu0 nus i (nth y t i)) * f (y, tval t)).
  rewrite sum_pairs; apply: eq_bigr => y _; rewrite mulr_sumr; apply: eq_bigr => t _ /=.
  rewrite mulrA; congr (_ * _ * _).
  by apply: eq_bigr => i _; rewrite (tnth_nth y).
apply: eq_bigr => y _; congr (_ * _).
suff H (g : seq Y -> R) : \sum_(t : (size nus).-tuple Y)
    (\prod_(i < size nus) nth nu0 nus i (nth y t i)) * g t = lsum nus g.
  exact: (H (fun ys => f (y, ys))).
elim: nus g => [|nu nus IH] g /=.
  rewrite (@sum_tuple0 Y (fun t => \prod_(i < 0) nth nu0 [::] i (nth y t i) * g t)).
  by rewrite big_ord0 mul1r.
rewrite (@sum_tuple_cons Y _ (fun t => \prod_(i < (size nus).+1) nth nu0 (nu :: nus) i (nth y t i) * g t)).
apply: eq_bigr => y' _; rewrite -IH mulr_sumr; apply: eq_bigr => t _.
by rewrite big_ord_recl /= mulrA.
Qed.

Lemma normals_size key nu0 nus :
  always (fun r => size r.2 = size nus) (@normals Y key nu0 nus).
Proof. by apply/always_bind => -[y t] /=; rewrite size_tuple. Qed.

Lemma proper_normals key nu0 nus : prob_vec nu0 ->
  (forall nu, List.In nu nus -> prob_vec nu) -> proper (@normals Y key nu0 nus).
Proof.
move=> p0 pn; apply: proper_bind => //.
have pn' i : prob_vec (nth nu0 nus i).
  elim: nus i pn => [|nu nus IH] [|i] //= pn; first by apply: pn; left.
  by apply: IH => m im; apply: pn; right.
split=> //.
  move=> [y t]; apply: mulr_ge0; first exact: (proj1 p0).
  by apply: prodr_ge0 => i _; apply: (proj1 (pn' i)).
have := E_normals key nu0 nus (fun _ => 1); rewrite /normals E_bind E_draw.
under eq_bigr do rewrite /= mulr1.
move=> ->; under eq_bigr do rewrite lsum_const // mulr1.
exact: (proj2 p0).
Qed.

(** Drawing all entries first, or each one when the scan needs it. *)
Lemma lsum_scan (C I O : Type) (law : I -> Y -> R) (body : C -> I -> Y -> prog (C * O)) c ins f :
  lsum (map law ins) (fun ys => E (scan (fun c z => body c z.1 z.2) c (zip ins ys)) f)
  = E (scan (fun c i => Draw [::] Y (law i) (fun y => body c i y)) c ins) f.
Proof.
elim: ins c f => [|i ins IH] c f //=; apply: eq_bigr => y _; congr (_ * _).
rewrite !E_bind.
under eq_lsum do rewrite E_bind.
rewrite (lsum_E _ (body c i y) (fun a ys => _)); apply: eq_E => -[c' o] /=.
rewrite E_bind -IH; apply: eq_lsum => ys.
by rewrite E_bind.
Qed.

End Lsum.

(** Two joint draws are one joint draw of pairs. *)
Lemma lsum_pair (Y Z : finType) (J : Type) (nu : J -> Y -> R) (mu : J -> Z -> R) (js : seq J) g :
  lsum (map nu js) (fun ys => lsum (map mu js) (fun zs => g (zip ys zs)))
  = lsum [seq (fun r : Y * Z => nu j r.1 * mu j r.2) | j <- js] g.
Proof.
elim: js g => [|j js IH] g //=.
transitivity (\sum_y nu j y * (\sum_z mu j z * lsum (map nu js) (fun ys =>
   lsum (map mu js) (fun zs => g ((y, z) :: zip ys zs))))).
  by apply: eq_bigr => y _; rewrite lsum_sum.
rewrite sum_pairs; apply: eq_bigr => y _; rewrite mulr_sumr; apply: eq_bigr => z _.
by rewrite (IH (fun ys => g ((y, z) :: ys))) mulrA.
Qed.

Lemma scan_map (C I J O : Type) (g : J -> I) (body : C -> I -> prog (C * O)) c l f :
  E (scan body c (map g l)) f = E (scan (fun c j => body c (g j)) c l) f.
Proof.
elim: l c f => [|j l IH] c f //=; rewrite !E_bind; apply: eq_E => -[c' o].
by rewrite !E_bind IH.
Qed.

(** Two scans agree when their bodies agree along an invariant. *)
Lemma E_scan_inv (C I O : Type) (inv : C -> seq I -> Prop) (body body' : C -> I -> prog (C * O)) c ins f :
  (forall c i ins, inv c (i :: ins) -> (forall g, E (body c i) g = E (body' c i) g)
     /\ almost (fun r => inv r.1 ins) (body' c i)) ->
  inv c ins -> E (scan body c ins) f = E (scan body' c ins) f.
Proof.
move=> H; elim: ins c f => [|i ins IH] c f //= ic.
rewrite !E_bind; have [-> al] := H _ _ _ ic; apply: eq_E_almost.
by apply: almost_imp al => -[c' o] /= inv'; rewrite !E_bind IH.
Qed.

(** An event of expectation one holds in every execution of non-zero mass. *)
Lemma E0_almost A (m : prog A) (P : A -> bool) :
  proper m -> E m (fun a => (~~ P a)%:R) = 0 -> almost (fun a => P a) m.
Proof.
elim: m => [a|k B p h IH] /=.
  by move=> _; case: (P a) => //= /eqP; rewrite oner_eq0.
move=> [p0 p1 pr] /eqP; rewrite psumr_eq0; last first.
  by move=> b _; apply: mulr_ge0 => //; apply: E_ge0 => // a; rewrite ler0n.
move=> /allP H b pb; apply: IH => //.
by have := H b (mem_index_enum b); rewrite mulf_eq0 (negbTE pb) /= => /eqP.
Qed.

Lemma rs_keeps n (rs : resampler n) key (w : 'I_n -> R) i j :
  good_resampler rs -> prob_vec w -> 0 < w i ->
  almost (fun A : {ffun 'I_n -> 'I_n} => A j == i) (rs key w i j true).
Proof.
move=> good pw wi; have [[rho co] pp] := good key w pw; apply: E0_almost => //.
apply: (mulfI (lt0r_neq0 wi)); rewrite mulr0 co big1 // => A ->.
by rewrite mulr0.
Qed.

(** ** The general sweep *)
Section Sweep.
Variables (X : finZmodType) (n' : nat).
Local Notation n := n'.+1.
Local Notation pop := (pop X n').
Local Notation anc := (anc n').
Local Notation lwts := (lwts n').
Variables (Y : finType) (PP PP' QQ : Type).
Variables (rs : resampler n) (mv : mover n).
Variables (W0 : pop -> lwts) (Wt : pop -> pop -> PP' -> lwts).
Variables (post : lwts -> lwts) (wof : lwts -> 'I_n -> R).
Variables (G0 : X -> R) (Gam : X -> X -> QQ -> R).
Variables (pof : PP -> PP') (qof : PP -> QQ).
(** Laws of the random inputs of each generation, and generations built from them
    (given the previous reference state, the index and the reference state). *)
Variables (law0 : Y -> R) (gen0 : 'I_n -> X -> Y -> pop).
Variables (law : PP -> Y -> R) (gen : PP -> X -> 'I_n -> X -> Y -> pop).

Fixpoint gpops (pp : seq PP) (xm : X) (xs : seq X) (bs : seq 'I_n) (ys : seq Y) : seq pop :=
  match pp, xs, bs, ys with
  | p :: pp', x :: xs', b :: bs', y :: ys' => gen p xm b x y :: gpops pp' x xs' bs' ys'
  | _, _, _, _ => [::]
  end.

Hypothesis postE : forall l, exists k, forall i, post l i = l i - k.
Hypothesis wofE : forall l, wof (post l) = normalize (post l).
Hypotheses (law0P : prob_vec law0) (lawP : forall p, prob_vec (law p)).
Hypothesis keep0 : forall b x y, gen0 b x y b = x.
Hypothesis keep : forall p xm b x y, gen p xm b x y b = x.
Hypothesis ok0 : exists S : pop -> R, forall b F,
  \sum_x exp (G0 x) * (\sum_y law0 y * F (gen0 b x y)) = \sum_x0 S x0 * exp (W0 x0 b) * F x0.
Hypothesis okt : forall p (xm : pop), exists S : pop -> R, forall b F,
  \sum_x exp (Gam (xm b) x (qof p)) * (\sum_y law p y * F (gen p (xm b) b x y))
  = \sum_xt S xt * exp (Wt xm xt (pof p) b) * F xt.
Hypothesis rs_good : good_resampler rs.

(** Static part of the inputs of step t. *)
Record ai := AI { a_p : PP; a_xm : X; a_bm1 : 'I_n; a_b : 'I_n; a_x : X; a_key : key }.

Fixpoint ains (pp : seq PP) (xm : X) (xs : seq X) (b : 'I_n) (bs : seq 'I_n) (key : key) (c : nat) : seq ai :=
  match pp, xs, bs with
  | p :: pp', x :: xs', b' :: bs' => AI p xm b b' x (split key c) :: ains pp' x xs' b' bs' key c.+1
  | _, _, _ => [::]
  end.

Definition to_sinp (i : ai) (y : Y) : sinp X n' PP' :=
  SInp (pof (a_p i)) (gen (a_p i) (a_xm i) (a_b i) (a_x i) y) (a_bm1 i) (a_b i) (a_key i).

Lemma sinputs_ains pp xm xs b bs key c ys :
  size ys = size pp -> size xs = size pp -> size bs = size pp ->
  sinputs (map pof pp) (gpops pp xm xs bs ys) b bs key c
  = [seq to_sinp z.1 z.2 | z <- zip (ains pp xm xs b bs key c) ys].
Proof.
elim: pp xm xs b bs c ys => [|p pp IH] xm [|x xs] b [|b' bs] c [|y ys] //= [s1] [s2] [s3].
by rewrite IH.
Qed.

Lemma law_ains pp xm xs b bs key c : size xs = size pp -> size bs = size pp ->
  map law pp = [seq law (a_p i) | i <- ains pp xm xs b bs key c].
Proof.
elim: pp xm xs b bs c => [|p pp IH] xm [|x xs] b [|b' bs] c //= [s2] [s3].
by rewrite -IH.
Qed.

Definition sinit : ginit X n' :=
  GInit (fun b x => Draw [::] Y law0 (fun y => Ret (gen0 b x y)))
        (fun x0 => minus_max (W0 x0)) G0.

Definition sstep (i : ai) : gstep X n' :=
  GStep (fun w k j => rs (a_key i) w k j true)
        (fun xm b x => Draw [::] Y (law (a_p i)) (fun y => Ret (gen (a_p i) (xm b) b x y)))
        (fun xm xt => post (Wt xm xt (pof (a_p i))))
        (fun x y => Gam x y (qof (a_p i))).

Lemma absorb_shift (S : pop -> R) (l : pop -> lwts) (l' : pop -> lwts) :
  (forall xt, exists k, forall i, l' xt i = l xt i - k) ->
  exists S' : pop -> R, forall b (F : pop -> R),
  \sum_xt S xt * exp (l xt b) * F xt = \sum_xt S' xt * exp (l' xt b) * F xt.
Proof.
move=> H; exists (fun xt => S xt * exp (l xt ord0 - l' xt ord0)) => b F.
apply: eq_bigr => xt _; congr (_ * _); rewrite -mulrA; congr (_ * _).
have [k Hk] := H xt; rewrite -expRD !Hk; congr exp; Rring.
Qed.

Lemma sinit_ok : init_ok sinit.
Proof.
have [S HS] := ok0; split.
- have [|S' HS'] := @absorb_shift S W0 (fun x0 => minus_max (W0 x0)); first by move=> xt; exists (amax (W0 xt)).
  by exists S' => b F; rewrite -HS' -HS.
- by move=> b x; split=> //; [exact: (proj1 law0P) | exact: (proj2 law0P)].
- by move=> b x /= y _; exact: keep0.
Qed.

Lemma sstep_ok i : rs_ok (sstep i) /\ prop_ok (sstep i).
Proof.
split; first by move=> w pw; exact: rs_good.
move=> xm; have [S HS] := okt (a_p i) xm; split.
- have [|S' HS'] := @absorb_shift S (fun xt => Wt xm xt (pof (a_p i))) (fun xt => post (Wt xm xt (pof (a_p i)))).
    by move=> xt; exact: postE.
  by exists S' => b F; rewrite -HS' -HS.
- by move=> b x; split=> //; [exact: (proj1 (lawP _)) | exact: (proj2 (lawP _))].
- by move=> b x /= y _; exact: keep.
Qed.

Lemma ains_ok l : steps_ok (rev [seq sstep i | i <- l]).
Proof.
rewrite -map_rev; elim: (rev l) => [|i l' IH] //=.
by have [] := sstep_ok i.
Qed.

Lemma ains_chained pp xm xs b bs key c :
  chained (fun i => (a_x i, a_b i)) a_bm1 b (ains pp xm xs b bs key c).
Proof. by elim: pp xm xs b bs c => [|p pp IH] xm [|x xs] b [|b' bs] c. Qed.

Lemma ains_ref pp xm xs b bs key c : size xs = size pp -> size bs = size pp ->
  [seq (a_x i, a_b i) | i <- ains pp xm xs b bs key c] = zip xs bs.
Proof.
elim: pp xm xs b bs c => [|p pp IH] xm [|x xs] b [|b' bs] c //= [s2] [s3].
by rewrite IH.
Qed.

Lemma ains_gam pp xm xs b bs key c : size xs = size pp -> size bs = size pp ->
  [seq g_gam s | s <- [seq sstep i | i <- ains pp xm xs b bs key c]]
  = [seq (fun x y => Gam x y q) | q <- map qof pp].
Proof.
elim: pp xm xs b bs c => [|p pp IH] xm [|x xs] b [|b' bs] c //= [s2] [s3].
by rewrite IH.
Qed.

Lemma ains_steps pp xm xs b bs key c xm' xs' b0 bs' :
  size xs = size pp -> size bs = size pp -> size xs' = size pp -> size bs' = size pp ->
  [seq sstep i | i <- ains pp xm xs b bs key c] = [seq sstep i | i <- ains pp xm' xs' b0 bs' key c].
Proof.
elim: pp xm xs b bs c xm' xs' b0 bs' => [|p pp IH] xm [|x xs] b [|b' bs] c xm' [|x' xs'] b0 [|b0' bs'] //=.
by move=> [s1] [s2] [s3] [s4]; congr (_ :: _); apply: IH.
Qed.

(** The reference is the particle of index [b]. *)
Definition sinv (c : ('I_n -> R) * pop) (l : seq ai) : Prop :=
  (exists lw, c.1 = normalize lw) /\
  match l with
  | [::] => True
  | i :: _ => c.2 (a_bm1 i) = a_xm i
  end /\
  (fix ok l := match l with
   | i :: l' => match l' with j :: _ => a_xm j = a_x i /\ a_bm1 j = a_b i | [::] => True end /\ ok l'
   | [::] => True end) l.

Lemma ains_inv pp xm xs b bs key c w (x0 : pop) : x0 b = xm ->
  sinv (normalize w, x0) (ains pp xm xs b bs key c).
Proof.
move=> xb; split; first by exists w.
split; first by case: pp xs bs => [|p pp] [|x xs] [|b' bs].
elim: pp xm xs b bs c {xb} => [|p pp IH] xm [|x xs] b [|b' bs] c //.
split; last exact: IH.
by clear; case: pp xs bs => [|p' pp] [|x' xs] [|b'' bs].
Qed.

Definition sbody (c : ('I_n -> R) * pop) (i : ai) : prog ((('I_n -> R) * pop) * (lwts * anc * pop)) :=
  do A <- rs (a_key i) c.1 (a_bm1 i) (a_b i) true;
  let xm := take_ax c.2 A in
  do xt <- g_prop (sstep i) xm (a_b i) (a_x i);
  let lw := g_lw (sstep i) xm xt in
  Ret ((normalize lw, xt), (lw, A, xt)).

Lemma E_scan_sweep w x0 l f : sinv (normalize w, x0) l ->
  E (scan (fun c i => Draw [::] Y (law (a_p i)) (fun y => aux_body rs Wt post wof c (to_sinp i y)))
       (normalize w, x0) l) f
  = E (scan sbody (normalize w, x0) l) f.
Proof.
apply: E_scan_inv => -[w' x] i l' [[lw /= ->] [/= xb al]].
have kA := rs_keeps (a_key i) (a_b i) rs_good (normalize_prob lw) (normalize_gt0 lw (a_bm1 i)).
split.
  move=> g; rewrite /=.
  transitivity (E (rs (a_key i) (normalize lw) (a_bm1 i) (a_b i) true) (fun A =>
     \sum_y law (a_p i) y * E (Ret (let xm := take_ax x A in let xt := gen (a_p i) (a_xm i) (a_b i) (a_x i) y in
        let lw := post (Wt xm xt (pof (a_p i))) in ((normalize lw, xt), (lw, A, xt)))) g)).
    under eq_bigr do rewrite E_bind.
    rewrite E_sumE; apply: eq_E => A; apply: eq_bigr => y _ /=.
    by rewrite wofE.
  rewrite E_bind; apply: eq_E_almost; apply: almost_imp kA => A /eqP Ab /=.
  apply: eq_bigr => y _; congr (_ * _).
  by rewrite /take_ax ffunE Ab xb.
apply/almost_bind; apply: almost_imp kA => A /eqP Ab /= y _ /=.
split; first by eexists.
case: l' al => [|j l'] //= [[exm ebm] al]; split=> //.
by rewrite ebm exm keep.
Qed.

Definition aux_sweep key b0 bs x0 xs pp qq backward : prog (seq X * seq 'I_n * seq lwts) :=
  do o <- aux_forward rs W0 Wt post wof key b0 bs x0 xs pp;
  aux_backward mv Gam key (last b0 bs) qq backward o.

(** The kernel: joint draws, then the sweep. *)
Definition skern (key : key) (x0 : X) (xs : seq X) (b0 : 'I_n) (bs : seq 'I_n) (pp : seq PP)
  (backward : bool) (f : seq X * seq 'I_n -> R) : R :=
  \sum_y0 law0 y0 * lsum (map law pp) (fun ys =>
    E (drop_weights (aux_sweep key b0 bs (gen0 b0 x0 y0)
         (gpops pp x0 xs bs ys) (map pof pp) (map qof pp) backward)) f).

Lemma skernE key x0 xs b0 bs pp backward z0 f : size xs = size pp -> size bs = size pp ->
  skern key x0 xs b0 bs pp backward f
  = E (gkern sinit z0 (fun c => split (split key 2) c) (gmv mv (mv_key backward key (size pp)))
         (rev [seq sstep i | i <- ains pp x0 xs b0 bs key 3])
         backward (rev (zip (x0 :: xs) (b0 :: bs))))
      (fun p => f (unzip1 (rev p), unzip2 (rev p))).
Proof.
move=> s2 s3.
pose back (h0 : lwts * pop) outs : R :=
  E (if backward then backward_sampling_pass mv Gam (split key 2) (map qof pp) (last b0 bs) (h0, outs) true
     else backward_scanning_pass mv (split key 2) (last b0 bs) (h0, outs)) f.
transitivity (E (g0_prop sinit b0 x0) (fun p0 =>
   E (scan sbody (normalize (g0_lw sinit p0), p0) (ains pp x0 xs b0 bs key 3))
     (fun co => back (g0_lw sinit p0, p0) co.2))).
  apply: eq_bigr => y0 _; congr (_ * _).
  rewrite -[RHS]E_scan_sweep; last by apply: ains_inv; rewrite keep0.
  rewrite -[RHS](@lsum_scan Y _ _ _ (fun i => law (a_p i))
     (fun c i y => aux_body rs Wt post wof c (to_sinp i y))).
  rewrite -law_ains //; apply: eq_lsum_size => ys; rewrite size_map => sy.
  rewrite /drop_weights E_bind /aux_sweep E_bind /aux_forward E_bind sinputs_ains //.
  rewrite -[RHS](scan_map (fun z => to_sinp z.1 z.2)); apply: eq_E => -[c outs] /=.
  rewrite /aux_backward E_bind /back; apply: eq_E => -[r1 r2] //.
have := @E_scan_gfwd X n' sinit z0 _ sbody sstep (fun i => (a_x i, a_b i)) a_bm1 _ (x0, b0)
  (ains pp x0 xs b0 bs key 3) (fun h0 _ outs => back h0 outs).
rewrite ains_ref // => ->; first last.
- exact: ains_chained.
- move=> w x i g; rewrite /sbody E_bind; apply: eq_E => A /=.
  by apply: eq_bigr => y _.
rewrite /gkern [RHS]E_bind; apply: eq_E_always.
apply: always_imp (gfwd_size sinit z0 (rev [seq sstep i | i <- ains pp x0 xs b0 bs key 3])
     (rev (zip (x0 :: xs) (b0 :: bs)))) => h sz.
rewrite /gmv !E_bind.
have -> : (head z0 (rev (zip (x0 :: xs) (b0 :: bs)))).2 = last b0 bs.
  rewrite -nth0 nth_rev //= subn1 /= -last_nth /=.
  have le : (size bs <= size xs)%N by rewrite s2 s3.
  rewrite -[in RHS](unzip2_zip le).
  by elim: (zip xs bs) (x0) (b0) => [|[a b] l IH] y c //=.
have szq : size h.2 = size pp.
  rewrite sz size_rev size_map -(size_map (fun i => (a_x i, a_b i))) ains_ref //.
  by rewrite size_zip s2 s3 minnn.
rewrite /back /mv_key /gback; case: backward {back}.
- rewrite (E_sampling mv (split key 2) (st := rev [seq sstep i | i <- ains pp x0 xs b0 bs key 3])) //; last first.
    by rewrite map_rev ains_gam // map_rev.
  by rewrite szq -surjective_pairing; apply: eq_E => -[k al] /=; apply: eq_E.
- by rewrite (E_scanning mv) -surjective_pairing; apply: eq_E.
Qed.

Lemma skern_gkern key pp backward (f : seq X -> seq 'I_n -> R) :
  let z0 := (0 : X, ord0 : 'I_n) in
  exists sts, [/\ steps_ok (rev sts),
    traj_sum (size pp) (fun x0 xs b0 bs => path_target G0 Gam (map qof pp) x0 xs *
      skern key x0 xs b0 bs pp backward (fun r => f r.1 r.2))
    = psum sinit z0 (rev sts) (fun p =>
        E (gkern sinit z0 (fun c => split (split key 2) c) (gmv mv (mv_key backward key (size pp)))
             (rev sts) backward p) (fun p => f (unzip1 (rev p)) (unzip2 (rev p))))
    & forall g : seq X -> seq 'I_n -> R,
    traj_sum (size pp) (fun x0 xs b0 bs => path_target G0 Gam (map qof pp) x0 xs * g (x0 :: xs) (b0 :: bs))
    = psum sinit z0 (rev sts) (fun p => g (unzip1 (rev p)) (unzip2 (rev p)))].
Proof.
move=> z0.
pose xs0 := nseq (size pp) (0 : X); pose bs0 := nseq (size pp) (ord0 : 'I_n).
pose sts := [seq sstep i | i <- ains pp 0 xs0 ord0 bs0 key 3].
have eg : [seq g_gam s | s <- sts] = [seq (fun x y => Gam x y q) | q <- map qof pp].
  by apply: ains_gam; rewrite ?size_nseq.
exists sts; split=> [||g]; first exact: ains_ok.
- rewrite -(@psum_traj X n' QQ Gam G0 sinit z0 sts (map qof pp) (fun p => E _ _)) // size_map.
  apply: eq_bigr => x0 _; apply: eq_bigr => b0 _; apply: eq_bigr => xs _; apply: eq_bigr => bs _.
  rewrite (@skernE key x0 xs b0 bs pp backward z0) ?size_tuple //.
  by rewrite (@ains_steps pp x0 xs b0 bs key 3 0 xs0 ord0 bs0) ?size_tuple ?size_nseq.
- rewrite -(@psum_traj X n' QQ Gam G0 sinit z0 sts (map qof pp)) // size_map.
  apply: eq_bigr => x0 _; apply: eq_bigr => b0 _; apply: eq_bigr => xs _; apply: eq_bigr => bs _.
  by rewrite revK unzip1_zip ?unzip2_zip //= ?size_tuple.
Qed.

Theorem skern_invariant key pp backward (f : seq X -> seq 'I_n -> R) : good_mover mv ->
  traj_sum (size pp) (fun x0 xs b0 bs => path_target G0 Gam (map qof pp) x0 xs *
     skern key x0 xs b0 bs pp backward (fun r => f r.1 r.2))
  = traj_sum (size pp) (fun x0 xs b0 bs => path_target G0 Gam (map qof pp) x0 xs * f (x0 :: xs) (b0 :: bs)).
Proof.
move=> mv_good; have [sts [ok -> ->]] := skern_gkern key pp backward f.
apply: gkern_invariant => //; first exact: sinit_ok.
move=> lw g; rewrite -[RHS](mv_good (mv_key backward key (size pp)) (normalize lw)).
  by apply: eq_bigr => k _; rewrite /gmv E_bind.
exact: normalize_prob.
Qed.

Theorem skern_error key pp backward (f : seq X -> seq 'I_n -> R) c eps :
  (forall key w (g : 'I_n -> R), prob_vec w -> (forall k, `|g k| <= c) ->
     `|\sum_k w k * E (mv key w k) (fun r => g r.1) - \sum_k w k * g k| <= eps) ->
  (forall xs bs, `|f xs bs| <= c) ->
  `| traj_sum (size pp) (fun x0 xs b0 bs => path_target G0 Gam (map qof pp) x0 xs *
       skern key x0 xs b0 bs pp backward (fun r => f r.1 r.2))
     - traj_sum (size pp) (fun x0 xs b0 bs => path_target G0 Gam (map qof pp) x0 xs * f (x0 :: xs) (b0 :: bs)) |
  <= traj_sum (size pp) (fun x0 xs (b0 : 'I_n) bs => path_target G0 Gam (map qof pp) x0 xs * eps).
Proof.
move=> mvb fc; have [sts [ok -> H]] := skern_gkern key pp backward f.
rewrite H (H (fun _ _ => eps)).
apply: (@gkern_error X n' sinit (0, ord0) sinit_ok _ _ _ ok backward _ c eps) => //.
move=> lw g gc /=.
have := mvb (mv_key backward key (size pp)) (normalize lw) g (normalize_prob lw) gc.
by congr (`|_ - _| <= _); apply: eq_bigr => k _; rewrite /gmv E_bind.
Qed.

End Sweep.
