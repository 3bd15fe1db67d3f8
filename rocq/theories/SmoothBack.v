(** * SmoothBack: the backward pass of al_csmc_s.py and atp_csmc_s.py as backward sampling along paths, and
    the sum of the modified potentials; on any abelian group. *)
From Coq Require Import Reals FunctionalExtensionality Lra.
From mathcomp Require Import all_ssreflect all_algebra.
From Verif Require Import RInst Prog ProgTheory Resampling Spec ResamplingProofs.
From Verif Require Import KillingProofs MoveProofs ResamplingSpecs Csmc SmcTheory BackwardProofs.
From Verif Require Import CsmcInvariance AuxCsmc Smooth PathTheory.

Set Implicit Arguments.
Unset Strict Implicit.
Unset Printing Implicit Defensive.
Import GRing.Theory Num.Theory Order.TTheory.
Local Open Scope ring_scope.

Section Given.
Variables (X : zmodType) (n' : nat) (Q setting : Type).
Local Notation n := n'.+1.
Local Notation pop := (pop X n').
Local Notation anc := (anc n').
Local Notation lwts := (lwts n').
Local Notation Z := (X * 'I_n)%type.
Local Notation QQ := (setting * X * Q)%type.
Local Notation hist := (hist X n').
Local Notation pstep := (pstep X n').
Variables (ld : setting -> X -> R) (scale : setting -> X -> X).
Variables (val0 : X -> R) (valt : X -> X -> Q -> R).
Variables (g0 : X -> X) (ga gb : X -> X -> Q -> X).
Variables (mv : mover n).

Local Notation Gamma_0 := (sm_Gamma_0 ld scale val0 g0).
Local Notation Gamma_1 := (sm_Gamma_1 ld scale valt g0 ga gb).
Local Notation Gamma_t := (sm_Gamma_t ld scale valt ga gb).
Local Notation bsamp := (sm_backward_sampling ld scale valt g0 ga gb mv).

Variable p0 : setting * X.

Definition pcol (ps : 'I_n -> seq X) (t : nat) : pop := [ffun i => nth 0 (ps i) t].

(** ** The target *)
Fixpoint sm_log (pm : QQ) (xmm xm : X) (xs : seq X) (ps : seq QQ) : R :=
  match xs, ps with
  | x :: xs', p :: ps' => Gamma_t pm p xmm xm x + sm_log p xm x xs' ps'
  | _, _ => 0
  end.

Definition sm_target (p1 : QQ) (ps : seq QQ) (x0 : X) (xs : seq X) : R :=
  if xs is x1 :: xs' then exp (Gamma_0 p0 x0 + Gamma_1 p0 p1 x0 x1 + sm_log p1 x0 x1 xs' ps) else 0.

(** ** The backward pass *)
Section Back.
Variables (p1 : QQ) (ps : seq QQ).
Local Notation pr := (fun t => nth p1 (p1 :: ps) t).

Definition gam (t : nat) : seq X -> X -> R :=
  match t with
  | 0 => fun _ _ => 0
  | 1 => fun p x => Gamma_1 p0 (pr 0%N) (nth 0 p 0) x
  | t'.+2 => fun p x => Gamma_t (pr t') (pr t'.+1) (nth 0 p 1) (nth 0 p 0) x
  end.

Fixpoint gams (st : seq pstep) : Prop :=
  if st is s :: st' then p_gam s = gam (size st) /\ gams st' else True.

Variables (x_ xm_ : nat -> pop) (lw_ : nat -> lwts).

Fixpoint agr (h0 : lwts * pop) (outs : seq (lwts * anc * pop)) : Prop :=
  match outs with
  | [::] => x_ 0%N = h0.2 /\ lw_ 0%N = h0.1
  | (lw, A, x) :: outs' =>
      [/\ x_ (size outs) = x, lw_ (size outs) = lw,
          (0 < size outs')%N -> xm_ (size outs') = take_ax (hlast (h0, outs')).2 A & agr h0 outs']
  end.

Lemma agr_last h0 outs : agr h0 outs -> (lw_ (size outs), x_ (size outs)) = hlast (h0, outs).
Proof. by case: outs => [|[[lw A] x] outs] /=; [move=> [-> ->]; rewrite -surjective_pairing | move=> [-> -> _ _]]. Qed.

Lemma nth0_hpath (h0 : lwts * pop) outs i : nth 0 (hpath (h0, outs) i) 0 = (hlast (h0, outs)).2 i.
Proof. by case: outs => [|[[lw A] x] outs]. Qed.

Lemma nth1_hpath (h0 : lwts * pop) lw A x outs i :
  nth 0 (hpath (h0, (lw, A, x) :: outs) i) 1 = (hlast (h0, outs)).2 (A i).
Proof. by rewrite /hpath /=; exact: nth0_hpath. Qed.

(** What the potential of time 2 must satisfy for the predecessors of time 1 not to matter. *)
Hypothesis first_free : (0 < size ps)%N -> forall a a' b c,
  Gamma_t (pr 0%N) (pr 1%N) a b c = Gamma_t (pr 0%N) (pr 1%N) a' b c.

Lemma gam_path h0 outs i x1 : (0 < size outs)%N -> (size outs <= size ps)%N -> agr h0 outs ->
  gam (size outs).+1 (hpath (h0, outs) i) x1
  = Gamma_t (pr (size outs).-1) (pr (size outs)) (xm_ (size outs).-1 i) (x_ (size outs) i) x1.
Proof.
case: outs => [|[[lw A] x] outs] // _ le [/= -> _ Hm ag] /=.
have := nth0_hpath h0 outs (A i); rewrite /hpath /= => ->.
case: outs le Hm ag => [|o outs] le Hm ag; last by rewrite Hm // ffunE.
exact: first_free.
Qed.

Definition inv2 (t : nat) (Phi : seq X -> R) (x1 x2 : X) : Prop :=
  exists c, forall p, Phi p = c + gam t.+1 p x1 + gam t.+2 (x1 :: p) x2.

Lemma inv2_step t Phi x1 x2 x Phi' : inv2 t.+1 Phi x1 x2 ->
  (forall p, Phi' p = gam t.+1 p x + Phi (x :: p)) -> inv2 t Phi' x x1.
Proof.
move=> [c Hc] H; exists (c + Gamma_t (pr t.+1) (pr t.+2) x x1 x2) => p.
rewrite H Hc.
have -> : gam t.+3 (x1 :: x :: p) x2 = Gamma_t (pr t.+1) (pr t.+2) x x1 x2 by [].
by move: (gam t.+1 p x) (gam t.+2 (x :: p) x1) (sm_Gamma_t _ _ _ _ _ _ _ _ _ _); clear; move=> *; toR; lra.
Qed.

Lemma E_choice_ext (k k' : key) (w w' : 'I_n -> R) f f' : w =1 w' -> f =1 f' ->
  E (choice k w) f = E (choice k' w') f'.
Proof.
move=> /functional_extensionality -> /functional_extensionality ->.
by rewrite /choice !E_draw.
Qed.

Lemma eq_normalize_shift (lw lw' : lwts) c : (forall i, lw i = lw' i + c) -> normalize lw =1 normalize lw'.
Proof. by move=> H i; rewrite -(normalize_shift lw' c); exact: eq_normalize. Qed.

(** Weights of time t. *)
Lemma weights_t key h0 outs Phi x1 x2 : (0 < size outs)%N -> (size outs < size ps)%N -> agr h0 outs ->
  inv2 (size outs) Phi x1 x2 ->
  normalize (fun i => Phi (hpath (h0, outs) i) + (hlast (h0, outs)).1 i)
  =1 bs_weights ld scale valt ga gb (BInp key (xm_ (size outs).-1) (x_ (size outs)) (lw_ (size outs))
        (pr (size outs).-1) (pr (size outs)) (pr (size outs).+1)) x1 x2.
Proof.
move=> s0 s1 ag [c Hc]; apply: (@eq_normalize_shift _ _ c) => i.
rewrite Hc (gam_path _ _ s0 (ltnW s1) ag) -(agr_last ag).
have -> : gam (size outs).+2 (x1 :: hpath (h0, outs) i) x2
   = Gamma_t (pr (size outs)) (pr (size outs).+1) (x_ (size outs) i) x1 x2.
  by rewrite /= nth0_hpath -(agr_last ag).
rewrite /=; move: (sm_Gamma_t _ _ _ _ _ _ _ _ _ _) (sm_Gamma_t _ _ _ _ _ _ _ _ _ _) (lw_ _ _); clear; move=> *; toR; lra.
Qed.

Definition w_0 (y0 y1 : X) : 'I_n -> R := normalize (fun i =>
  Gamma_1 p0 p1 (x_ 0%N i) y0 + Gamma_t (pr 0%N) (pr 1%N) (x_ 0%N i) y0 y1 + lw_ 0%N i).

Lemma weights_0 h0 Phi x1 x2 : agr h0 [::] -> inv2 0 Phi x1 x2 ->
  normalize (fun i => Phi (hpath (h0, [::]) i) + (hlast (h0, [::])).1 i) =1 w_0 x1 x2.
Proof.
move=> [/= e1 e2] [c Hc]; apply: (@eq_normalize_shift _ _ c) => i /=.
rewrite Hc /= -e1 -e2.
by move: (sm_Gamma_t _ _ _ _ _ _ _ _ _ _) (sm_Gamma_1 _ _ _ _ _ _ _ _ _ _) (lw_ _ _); clear; move=> *; toR; lra.
Qed.

Definition b_inp (key : key) (t : nat) : binp X n' Q setting :=
  BInp (split key t) (xm_ t.-1) (x_ t) (lw_ t) (pr t.-1) (pr t) (pr t.+1).

Lemma rev_iota m : rev (iota 1 m.+1) = m.+1 :: rev (iota 1 m).
Proof. by rewrite -[in LHS](addn1 m) iotaD rev_cat /= add1n. Qed.

Lemma E_scan_bs key h0 outs st Phi x1 x2 (g : seq Z -> R) :
  size st = size outs -> (size outs < size ps)%N -> gams st -> agr h0 outs -> inv2 (size outs) Phi x1 x2 ->
  E (scan (@bs_body X n' Q setting ld scale valt ga gb) (x1, x2) [seq b_inp key t | t <- rev (iota 1 (size outs))])
    (fun co => E (choice (split key 0) (w_0 co.1.1 co.1.2)) (fun B => g (co.2 ++ [:: (x_ 0%N B, B)])))
  = E (choice [::] (normalize (fun i => Phi (hpath (h0, outs) i) + (hlast (h0, outs)).1 i)))
      (fun j => E (pbs st Phi h0 outs j) g).
Proof.
elim: outs st Phi x1 x2 g => [|[[lw A] x] outs IH] [|s st] Phi x1 x2 g //.
  move=> _ lt _ ag iv; symmetry; apply: E_choice_ext; first exact: weights_0.
  by move=> B; have [/= e _] := ag; rewrite e.
move=> /= [sz] lt [gs gst] ag iv.
have [ex _ _ ag'] := ag; rewrite rev_iota map_cons /= .
under [LHS]eq_bigr do rewrite E_bind.
pose Phi' B p := p_gam s p (x B) + Phi (x B :: p).
transitivity (E (choice [::] (normalize (fun i => Phi (hpath (h0, (lw, A, x) :: outs) i) + lw i))) (fun B =>
  E (choice [::] (normalize (fun i => Phi' B (hpath (h0, outs) i) + (hlast (h0, outs)).1 i)))
    (fun j => E (pbs st (Phi' B) h0 outs j) (fun p => g ((x B, B) :: p))))); last first.
  by apply: eq_bigr => B _; congr (_ * _); apply: eq_bigr => j _; rewrite E_bind.
symmetry; apply: (@E_choice_ext [::] (split key (size outs).+1)).
  exact: (@weights_t (split key (size outs).+1) h0 ((lw, A, x) :: outs)).
move=> B /=; rewrite ex.
have iv' : inv2 (size outs) (Phi' B) (x B) x1.
  by apply: inv2_step iv _ => p; rewrite /Phi' gs sz.
apply: etrans (esym (IH st _ _ _ (fun p => g ((x B, B) :: p)) sz (ltnW lt) gst ag' iv')) _.
by apply: eq_E => -[c o].
Qed.

Lemma bs_carry x1 x2 (ins : seq (binp X n' Q setting)) :
  always (fun co => co.1 = (nth 0 (rev (unzip1 co.2) ++ [:: x1; x2]) 0, nth 0 (rev (unzip1 co.2) ++ [:: x1; x2]) 1))
    (scan (@bs_body X n' Q setting ld scale valt ga gb) (x1, x2) ins).
Proof.
elim: ins x1 x2 => [|i ins IH] x1 x2 //= B; apply/always_bind.
apply: always_imp (IH (b_x i B) x1) => -[c o] /= ->.
rewrite rev_cons cat_rcons; case: (rev (unzip1 o)) => [|a [|b l]] //=.
Qed.

Lemma E_bsamp key bT h0 outs st f xs xm1 lws :
  x_ = nth [ffun=> 0] xs -> xm_ = nth [ffun=> 0] xm1 -> lw_ = nth (fun=> 0) lws ->
  size xs = (size outs).+1 -> size xm1 = size outs ->
  size st = size outs -> (0 < size ps)%N -> size outs = (size ps).+1 -> gams st -> agr h0 outs ->
  E (bsamp key p0 p1 ps bT xs xm1 lws) f
  = E (mv (split key (size outs)) (normalize (hlast (h0, outs)).1) bT) (fun r =>
      E (pbs st (fun=> 0) h0 outs r.1) (fun p => f (unzip1 (rev p), unzip2 (rev p)))).
Proof.
move=> ex em el sx sm sst s0 so gst ag.
have eL := agr_last ag.
rewrite /sm_backward_sampling -ex -em -el sx sm so; cbv zeta; rewrite E_bind subn1 [_.-1]/=.
have -> : lw_ (size ps).+1 = (hlast (h0, outs)).1 by rewrite -eL so.
apply: eq_E => -[B al]; cbv beta iota; rewrite E_bind /=.
case: outs sst so ag {sx sm eL} => [|[[lw A] x] outs1] //; case: st gst => [|s st] // [gs gst] [sst] [so] [xs0 _ _ ag].
case: outs1 st gst sst gs so ag xs0 => [|o1 outs] st gst sst gs so ag xs0.
  by rewrite -so in s0.
case: st gst sst gs => [|s' st] // gst sst gs.
have sp : size ps = (size outs).+1 by rewrite -so.
have sz1 : size (o1 :: outs) = (size outs).+1 by [].
have gp i y := @gam_path h0 (o1 :: outs) i y isT (eq_leq so) ag.
have eL := @agr_last h0 (o1 :: outs) ag; rewrite sz1 in eL.
have exo : x_ (size outs).+2 = x by rewrite -xs0.
rewrite sp !subSS !subn0 exo.
have e2 : (hlast (h0, o1 :: outs)).2 = x_ (size outs).+1 by rewrite -eL.
case: o1 ag gp eL e2 so sst {sz1 xs0} => [[lw' A'] x'] ag gp eL e2 so sst.
have [xs1 _ _ ag'] := ag; have [gs' gst'] := gst; have [sst'] := sst.
rewrite /= in e2.
rewrite [RHS]/=; apply: (@E_choice_ext (split key (size outs).+1) [::]).
  apply: eq_normalize => l; rewrite gs /=.
  have := gp l (x B); rewrite /= sst' => ->; rewrite -e2 addr0.
  by case: eL => -> _.
move=> j.
rewrite e2 E_bind; set y := x_ (size outs).+1 j.
pose Phi2 (p : seq X) := p_gam s' p y + (p_gam s (y :: p) (x B) + 0).
have iv : inv2 (size outs) Phi2 y (x B).
  exists 0 => p; rewrite /Phi2 gs gs' add0r addr0 /= sst'; reflexivity.
pose g (p : seq Z) := f (unzip1 (rev ((x B, B) :: (y, j) :: p)), unzip2 (rev ((x B, B) :: (y, j) :: p))).
transitivity (E (choice [::] (normalize (fun i => Phi2 (hpath (h0, outs) i) + (hlast (h0, outs)).1 i)))
      (fun k => E (pbs st Phi2 h0 outs k) g)); last first.
  by apply: eq_bigr => k _; congr (_ * _); rewrite !E_bind.
have lt : (size outs < size ps)%N by rewrite sp.
apply: etrans (@E_scan_bs key h0 outs st Phi2 y (x B) g sst' lt gst' ag' iv).
apply: eq_E_always; apply: always_imp (bs_carry y (x B) _) => -[c o] /= ->.
apply: eq_bigr => b _; congr (_ * _); rewrite /g !rev_cons rev_cat /= -!cats1 -!catA /=.
by rewrite /unzip1 /unzip2 !map_cat /= !map_rev.
Qed.
End Back.

(** ** The end of the kernels *)
Section Finish.
Variables (p1 : QQ) (ps : seq QQ).
Local Notation out4 := (lwts * anc * pop * pop)%type.

Definition hprev (h : hist) : pop :=
  if h.2 is (lw, A, x) :: outs' then take_ax (hlast (h.1, outs')).2 A else [ffun=> 0].

Definition hcar (h : hist) := (normalize (hlast h).1, (hlast h).2, hprev h).

Definition hout (h : hist) : out4 :=
  if h.2 is (lw, A, x) :: _ then (lw, A, hprev h, x) else (h.1.1, [ffun=> ord0], h.1.2, h.1.2).

Definition fin key bT backward (h0 : lwts * pop) (os : seq out4) : prog (seq X * seq 'I_n * seq lwts) :=
  if os is (lw1, A0, x0r, x1) :: os' then
    sm_finish ld scale valt g0 ga gb mv key p0 p1 ps bT backward (Fwd h0.1 h0.2 A0 x0r lw1 x1 os')
  else Ret ([::], [::], [::]).

Definition z0 : Z := (0, ord0).

Lemma houts_proj h0 (outs : seq (lwts * anc * pop)) : [seq (o.1.1.1, o.1.1.2, o.2) | o <- houts hout h0 outs] = outs.
Proof. by elim: outs => [|[[lw A] x] outs IH] //=; rewrite IH. Qed.

Lemma agr_lists (x_ xm_ : nat -> pop) (lw_ : nat -> lwts) d dx (h0 : lwts * pop) outs :
  (forall t, (t <= size outs)%N -> x_ t = nth d (h0.2 :: rev [seq o.2 | o <- outs]) t) ->
  (forall t, (t <= size outs)%N -> lw_ t = nth (fun=> 0) (h0.1 :: rev [seq o.1.1 | o <- outs]) t) ->
  (forall t, (0 < t < size outs)%N -> xm_ t = nth dx (rev [seq o.1.2 | o <- houts hout h0 outs]) t) ->
  agr x_ xm_ lw_ h0 outs.
Proof.
have zh o : size (houts hout h0 o) = size o by rewrite -(size_map (fun o => (o.1.1.1, o.1.1.2, o.2))) houts_proj.
elim: outs => [|[[lw A] x] outs IH] Hx Hl Hm /=; first by split; [exact: (Hx 0%N)|exact: (Hl 0%N)].
split.
- by rewrite Hx //= rev_cons nth_rcons size_rev size_map ltnn eqxx.
- by rewrite Hl //= rev_cons nth_rcons size_rev size_map ltnn eqxx.
- move=> s0; rewrite Hm ?s0 ?ltnSn //= rev_cons nth_rcons size_rev size_map zh ltnn eqxx //.
- apply: IH => [t le|t le|t /andP [l1 l2]].
  + by rewrite Hx ?leqW // /= rev_cons -rcons_cons nth_rcons /= size_rev size_map ltnS le.
  + by rewrite Hl ?leqW // /= rev_cons -rcons_cons nth_rcons /= size_rev size_map ltnS le.
  + by rewrite Hm ?l1 ?leqW // /= rev_cons nth_rcons size_rev size_map zh l2.
Qed.

Lemma finE key bT (backward : bool) (h0 : lwts * pop) outs st f :
  size outs = (size ps).+1 -> size st = size outs -> gams p1 ps st ->
  (backward -> (0 < size ps)%N /\ forall a a' b c,
     Gamma_t (nth p1 (p1 :: ps) 0) (nth p1 (p1 :: ps) 1) a b c = Gamma_t (nth p1 (p1 :: ps) 0) (nth p1 (p1 :: ps) 1) a' b c) ->
  E (drop_weights (fin key bT backward h0 (rev (houts hout h0 outs)))) f
  = E (gmv mv (mv_key backward key (size outs)) (normalize (hlast (h0, outs)).1) bT)
      (fun k => E (pback st backward (h0, outs) k) (fun p => f (unzip1 (rev p), unzip2 (rev p)))).
Proof.
move=> so sst gst ff; rewrite /gmv E_bind.
have zh : size (houts hout h0 outs) = size outs by rewrite -(size_map (fun o => (o.1.1.1, o.1.1.2, o.2))) houts_proj.
have ho := houts_proj h0 outs.
have rE : rev outs = [seq (o.1.1.1, o.1.1.2, o.2) | o <- rev (houts hout h0 outs)] by rewrite map_rev ho.
have hm (m : out4 -> pop) : rev [seq m o | o <- houts hout h0 outs] = [seq m o | o <- rev (houts hout h0 outs)].
  by rewrite map_rev.
have szr : size (rev (houts hout h0 outs)) = (size ps).+1 by rewrite size_rev zh.
have hmm := hm (fun o => o.1.2).
case e : (rev (houts hout h0 outs)) rE szr hmm => [|[[[lw1 A0] x0r] x1] os] // rE [szr] hmm.
rewrite /fin /sm_finish /drop_weights /sm_xs /sm_xs_m_1 /sm_log_ws /sm_gens /sm_As /=; rewrite !E_bind.
case: backward ff => ff.
- have [s0 Hff] := ff isT.
  set xs := [:: h0.2, x1 & _]; set xm1 := _ :: [seq o.1.2 | o <- os]; set lws := [:: h0.1, lw1 & _].
  have ag : agr (nth [ffun=> 0] xs) (nth [ffun=> 0] xm1) (nth (fun=> 0) lws) h0 outs.
    apply: (@agr_lists _ _ _ [ffun=> 0] [ffun=> 0]) => [t _|t _|[|t] // _].
    - by rewrite -map_rev rE /= -map_comp.
    - by rewrite -map_rev rE /= -map_comp.
    - by rewrite hmm.
  apply: etrans _ (@E_bsamp p1 ps (nth [ffun=> 0] xs) (nth [ffun=> 0] xm1) (nth (fun=> 0) lws) (fun _ => Hff)
    (split key 2) bT h0 outs st f xs xm1 lws erefl erefl erefl _ _ sst s0 so gst ag).
  + by apply: eq_E => -[a b].
  + by rewrite /= size_map szr so.
  + by rewrite /= size_map szr so.
- have -> : (h0.1, h0.2, (lw1, A0, x1) :: [seq (o.1.1.1, o.1.1.2, o.2) | o <- os]) = (h0, rev outs).
    by rewrite -surjective_pairing rE.
  by rewrite E_scanning.
Qed.

Lemma last_rev_zip (x0 x1 : X) (xs : seq X) (b0 b1 : 'I_n) bs : size xs = size bs ->
  (head z0 (rev (zip (x0 :: x1 :: xs) (b0 :: b1 :: bs)))).2 = last b1 bs.
Proof.
move=> sz; rewrite /= /rev /=; elim: xs bs x1 b1 [:: (x0, b0)] sz => [|x xs IH] [|b bs] x1 b1 l //= [sz].
exact: IH.
Qed.

End Finish.

(** ** The sum of the modified potentials *)
Local Notation fgrad := (full_grad ga gb).

Lemma fgrad_size own x xs qs : size xs = size qs -> size (fgrad own x xs qs) = (size qs).+1.
Proof. by elim: qs own x xs => [|q qs IH] own x [|x' xs] //= [sz]; rewrite IH. Qed.

Fixpoint alog (xs : seq X) (ss : seq setting) (gs us : seq X) : R :=
  match xs, ss, gs, us with
  | x :: xs', s :: ss', g :: gs', u :: us' => ld s (u - (x + scale s g)) + alog xs' ss' gs' us'
  | _, _, _, _ => 0
  end.

Lemma tele_t s u qm xmm x xs ss us qs : size ss = size qs -> size us = size qs -> size xs = size qs ->
  ld s (u - (x + scale s (gb xmm x qm))) + sm_log (s, u, qm) xmm x xs (zip (zip ss us) qs)
  = log_path valt x xs qs + alog (x :: xs) (s :: ss) (fgrad (gb xmm x qm) x xs qs) (u :: us).
Proof.
elim: qs s u qm xmm x xs ss us => [|q qs IH] s u qm xmm x [|x' xs] [|s' ss] [|u' us] //.
  by rewrite /= !addr0 add0r.
move=> [s1] [s2] [s3].
have := IH s' u' q x x' xs ss us s1 s2 s3.
have -> : alog [:: x, x' & xs] [:: s, s' & ss] (fgrad (gb xmm x qm) x (x' :: xs) (q :: qs)) [:: u, u' & us]
  = ld s (u - (x + scale s (gb xmm x qm + ga x x' q))) + alog (x' :: xs) (s' :: ss) (fgrad (gb x x' q) x' xs qs) (u' :: us) by [].
have -> : sm_log (s, u, qm) xmm x (x' :: xs) (zip (zip (s' :: ss) (u' :: us)) (q :: qs))
  = sm_Gamma_t ld scale valt ga gb (s, u, qm) (s', u', q) xmm x x' + sm_log (s', u', q) x x' xs (zip (zip ss us) qs) by [].
have -> : log_path valt x (x' :: xs) (q :: qs) = valt x x' q + log_path valt x' xs qs by [].
rewrite (addrC (gb xmm x qm)) /sm_Gamma_t.
move: (sm_log _ _ _ _ _) (log_path _ _ _ _) (alog _ _ _ _) (ld s' _) => a b c d.
by move: (ld s _) (ld s _) (valt _ _ _); clear; move=> e g h; toR; lra.
Qed.

Lemma tele s0 u0 x0 s1 u1 q1 x1 ss us qs xs : size ss = size qs -> size us = size qs -> size xs = size qs ->
  sm_Gamma_0 ld scale val0 g0 (s0, u0) x0 + sm_Gamma_1 ld scale valt g0 ga gb (s0, u0) (s1, u1, q1) x0 x1
    + sm_log (s1, u1, q1) x0 x1 xs (zip (zip ss us) qs)
  = val0 x0 + log_path valt x0 (x1 :: xs) (q1 :: qs)
    + alog (x0 :: x1 :: xs) (s0 :: s1 :: ss) (fgrad (g0 x0) x0 (x1 :: xs) (q1 :: qs)) (u0 :: u1 :: us).
Proof.
move=> z1 z2 z3.
have := tele_t s1 u1 q1 x0 x1 z1 z2 z3.
have -> : alog [:: x0, x1 & xs] [:: s0, s1 & ss] (fgrad (g0 x0) x0 (x1 :: xs) (q1 :: qs)) [:: u0, u1 & us]
  = ld s0 (u0 - (x0 + scale s0 (g0 x0 + ga x0 x1 q1))) + alog (x1 :: xs) (s1 :: ss) (fgrad (gb x0 x1 q1) x1 xs qs) (u1 :: us) by [].
have -> : log_path valt x0 (x1 :: xs) (q1 :: qs) = valt x0 x1 q1 + log_path valt x1 xs qs by [].
rewrite (addrC (g0 x0)) /sm_Gamma_0 /sm_Gamma_1.
move: (sm_log _ _ _ _ _) (log_path _ _ _ _) (alog _ _ _ _) (ld s1 _) => a b c d.
by move: (ld s0 _) (ld s0 _) (valt _ _ _) (val0 _); clear; move=> e g h i; toR; lra.
Qed.

End Given.
