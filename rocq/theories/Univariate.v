(** * Univariate: the kernels with smoothing gradients when no potential has a gradient in the previous state. *)
From Coq Require Import Reals Lra FunctionalExtensionality.
From mathcomp Require Import all_ssreflect all_algebra.
From Verif Require Import RInst Prog ProgTheory Resampling Spec ResamplingProofs MoveProofs Csmc CsmcInvariance CsmcSpecs SmcTheory SweepTheory.
From Verif Require Import AuxCsmc AuxProofs AuxFinal TpCsmc TpFinal AuxStruct Smooth SmoothSpec SmoothBack SmoothProofs SmoothFinal SmoothKeys SmoothWitness OneStep.

Set Implicit Arguments.
Unset Strict Implicit.
Unset Printing Implicit Defensive.
Import GRing.Theory Num.Theory Order.TTheory.
Local Open Scope ring_scope.

Section Backward.
Variables (X : zmodType) (n' : nat) (QQ : Type) (Gam : X -> X -> QQ -> R).
Local Notation n := n'.+1.
Local Notation pop := (pop X n').
Local Notation lwts := (lwts n').

Lemma normalize_ext (lw lw' : lwts) (c : R) : (forall i, lw i = lw' i + c) -> normalize lw = normalize lw'.
Proof. by move=> h; apply: functional_extensionality => i; rewrite (_ : lw = fun i => lw' i + c) ?normalize_shift //; exact: functional_extensionality. Qed.

(** The law of the states and indices found going backward from [x1], latest first. *)
Fixpoint back (x1 : X) (L : seq (lwts * pop * QQ)) (g : seq (X * 'I_n) -> R) : R :=
  match L with
  | (lw, x, q) :: L' => E (choice [::] (normalize (fun l => Gam (x l) x1 q + lw l)))
                          (fun B => back (x B) L' (fun o => g ((x B, B) :: o)))
  | [::] => g [::]
  end.

Lemma E_choice_key k k' (w : 'I_n -> R) f : E (choice k w) f = E (choice k' w) f.
Proof. by []. Qed.

Lemma back_ext x1 L g g' : g =1 g' -> back x1 L g = back x1 L g'.
Proof.
elim: L x1 g g' => [|[[lw x] q] L IH] x1 g g' e; first exact: e.
by apply: eq_bigr => B _; congr (_ * _); apply: IH => o; exact: e.
Qed.

(** Log-weights matter up to a constant. *)
Definition alike (a b : lwts * pop * QQ) : Prop := [/\ exists c, forall i, a.1.1 i = b.1.1 i + c, a.1.2 = b.1.2 & a.2 = b.2].

Fixpoint all_alike (L L' : seq (lwts * pop * QQ)) : Prop :=
  match L, L' with a :: L, b :: L' => alike a b /\ all_alike L L' | [::], [::] => True | _, _ => False end.

Lemma back_alike x1 L L' g : all_alike L L' -> back x1 L g = back x1 L' g.
Proof.
elim: L L' x1 g => [|[[lw x] q] L IH] [|[[lw' x'] q'] L'] x1 g // [[[c /= h] /= ex /= eq] al]; subst.
rewrite -[LHS]/(E (choice [::] (normalize _)) (fun B => back (x' B) L (fun o => g ((x' B, B) :: o)))).
rewrite (@normalize_ext _ (fun l => Gam (x' l) x1 q' + lw' l) c) => [|i]; last by rewrite h addrA.
by apply: eq_bigr => B _; congr (_ * _); exact: IH.
Qed.

(** csmc.py *)
Lemma E_bwd key c (gs : seq (lwts * pop)) qs x1 g :
  E (scan (bwd_body Gam) x1 (bwd_inputs key c gs qs)) (fun co => g co.2) = back x1 (zip gs qs) g.
Proof.
elim: gs qs c x1 g => [|[lw x] gs IH] [|q qs] c x1 g //.
transitivity (E (choice (split key c) (bwd_weights Gam x1 x lw q))
    (fun B => E (scan (bwd_body Gam) (x B) (bwd_inputs key c.+1 gs qs)) (fun co => g ((x B, B) :: co.2)))).
  apply: eq_bigr => B _; congr (_ * _).
  by apply: etrans (E_bind _ _ _) _; apply: eq_E => -[co o].
rewrite /bwd_weights (@normalize_ext _ (fun l => Gam (x l) x1 q + lw l) (- amax (fun l => Gam (x l) x1 q))) => [|i]; last first.
  by rewrite addrAC.
by apply: eq_bigr => B _; congr (_ * _); exact: (IH _ _ _ (fun o => g ((x B, B) :: o))).
Qed.
End Backward.

Section Zip.
Variables (A B : Type).
Lemma behead_rev (s : seq A) k : size s = k.+1 -> behead (rev s) = rev (take k s).
Proof. by case/lastP: s => [|s x] //; rewrite size_rcons => -[<-]; rewrite rev_rcons -cats1 take_size_cat. Qed.

Lemma zip_back (s : seq A) (q : seq B) k (da : A) (db : B) : size s = k.+1 -> size q = k ->
  zip (behead (rev s)) (rev q) = [seq (nth da s t, nth db q t) | t <- rev (iota 0 k)].
Proof.
move=> s1 s2; rewrite (behead_rev s1) -rev_zip ?size_take ?s1 ?s2 ?ltnSn // map_rev; congr (rev _).
have sz : size (take k s) = k by rewrite size_take s1 ltnSn.
apply: (@eq_from_nth _ (da, db)); first by rewrite size_zip sz s2 minnn size_map size_iota.
move=> t; rewrite size_zip sz s2 minnn => lt.
by rewrite nth_zip ?sz ?s2 // nth_take // (nth_map 0%N) ?size_iota // nth_iota.
Qed.
End Zip.

Section Al.
Variables (X : finZmodType) (n' : nat) (Q setting : Type).
Local Notation n := n'.+1.
Local Notation pop := (pop X n').
Local Notation anc := (anc n').
Local Notation lwts := (lwts n').
Local Notation QQ := (setting * X * Q)%type.
Variables (noise ld : setting -> X -> R) (scale : setting -> X -> X).
Variables (val0 : X -> R) (valt : X -> X -> Q -> R).
Variables (g0 : X -> X) (ga gb : X -> X -> Q -> X).
Variables (rs : resampler n) (mv : mover n).
Hypothesis ga0 : forall a b q, ga a b q = 0.
Local Notation Gam := (al_Gamma_t_tilde ld scale valt gb).

Lemma uni_0 (p0 : setting * X) x : sm_Gamma_0 ld scale val0 g0 p0 x = al_Gamma_0_tilde ld scale val0 g0 p0.1 p0.2 x.
Proof.
have e (a b c : X) : a - (b + c) = a - b - c by rewrite opprD addrA.
by case: p0 => s u; rewrite /sm_Gamma_0 /al_Gamma_0_tilde /= e.
Qed.
Lemma uni_1 p0 (p : QQ) xm x : sm_Gamma_1 ld scale valt g0 ga gb p0 p xm x = Gam xm x p.
Proof. by case: (@reduces X Q setting ld scale val0 valt g0 ga gb p0 p p xm xm x ga0). Qed.
Lemma uni_t (pm p : QQ) xmm xm x : sm_Gamma_t ld scale valt ga gb pm p xmm xm x = Gam xm x p.
Proof. by case: (@reduces X Q setting ld scale val0 valt g0 ga gb (p.1.1, 0) pm p xmm xm x ga0). Qed.

(** ** Backward sampling *)
Lemma iota_rev m : rev (iota 0 m.+1) = m :: rev (iota 0 m).
Proof. by rewrite -addn1 iotaD rev_cat. Qed.

Lemma E_bs key (x_ xm_ : nat -> pop) (lw_ : nat -> lwts) (pr : nat -> QQ) p0 m x1 x2 g :
  E (scan (@bs_body X n' Q setting ld scale valt ga gb) (x1, x2)
      [seq BInp (split key t) (xm_ t.-1) (x_ t) (lw_ t) (pr t.-1) (pr t) (pr t.+1) | t <- rev (iota 1 m)])
    (fun co => E (choice (split key 0) (normalize (fun i =>
        sm_Gamma_1 ld scale valt g0 ga gb p0 (pr 0%N) (x_ 0%N i) co.1.1
        + sm_Gamma_t ld scale valt ga gb (pr 0%N) (pr 1%N) (x_ 0%N i) co.1.1 co.1.2 + lw_ 0%N i)))
      (fun B => g (co.2 ++ [:: (x_ 0%N B, B)])))
  = back Gam x1 [seq (lw_ t, x_ t, pr t) | t <- rev (iota 0 m.+1)] g.
Proof.
elim: m x1 x2 g => [|m IH] x1 x2 g.
  transitivity (E (choice [::] (normalize (fun i => Gam (x_ 0%N i) x1 (pr 0%N) + lw_ 0%N i))) (fun B => g [:: (x_ 0%N B, B)])); last by [].
  rewrite -(@normalize_ext _ (fun i => sm_Gamma_1 ld scale valt g0 ga gb p0 (pr 0%N) (x_ 0%N i) x1
        + sm_Gamma_t ld scale valt ga gb (pr 0%N) (pr 1%N) (x_ 0%N i) x1 x2 + lw_ 0%N i) _ (Gam x1 x2 (pr 1%N))) => [|i]; first by [].
  by rewrite uni_1 uni_t addrAC.
rewrite rev_iota iota_rev !map_cons.
transitivity (E (choice [::] (normalize (fun i => Gam (x_ m.+1 i) x1 (pr m.+1) + lw_ m.+1 i))) (fun B =>
  E (scan (@bs_body X n' Q setting ld scale valt ga gb) (x_ m.+1 B, x1)
      [seq BInp (split key t) (xm_ t.-1) (x_ t) (lw_ t) (pr t.-1) (pr t) (pr t.+1) | t <- rev (iota 1 m)])
    (fun co => E (choice (split key 0) (normalize (fun i =>
        sm_Gamma_1 ld scale valt g0 ga gb p0 (pr 0%N) (x_ 0%N i) co.1.1
        + sm_Gamma_t ld scale valt ga gb (pr 0%N) (pr 1%N) (x_ 0%N i) co.1.1 co.1.2 + lw_ 0%N i)))
      (fun B' => g (((x_ m.+1 B, B) :: co.2) ++ [:: (x_ 0%N B', B')]))))).
  rewrite -(@normalize_ext _ (fun l => sm_Gamma_t ld scale valt ga gb (pr m.+1) (pr m.+2) (x_ m.+1 l) x1 x2
                      + sm_Gamma_t ld scale valt ga gb (pr m) (pr m.+1) (xm_ m l) (x_ m.+1 l) x1 + lw_ m.+1 l) _ (Gam x1 x2 (pr m.+2))) => [|i].
    apply: eq_bigr => B _; congr (_ * _); apply: etrans (E_bind _ _ _) _; apply: eq_E => -[co o]; reflexivity.
  by rewrite !uni_t addrC addrA addrAC -addrA addrC addrAC.
by apply: eq_bigr => B _; congr (_ * _); exact: (IH _ _ (fun o => g ((x_ m.+1 B, B) :: o))).
Qed.

Lemma E_bsamp_uni key p0 p1 ps bT xs xm1 lws f : (0 < size ps)%N -> size xs = (size ps).+2 ->
  let x_ := nth [ffun=> 0] xs in let lw_ := nth (fun=> 0) lws in let k := (size ps).+1 in
  E (sm_backward_sampling ld scale valt g0 ga gb mv key p0 p1 ps bT xs xm1 lws) f
  = E (mv (split key k) (normalize (lw_ k)) bT) (fun r =>
      back Gam (x_ k r.1) [seq (lw_ t, x_ t, nth p1 (p1 :: ps) t) | t <- rev (iota 0 k)]
        (fun o => f (rev (x_ k r.1 :: unzip1 o), rev (r.1 :: unzip2 o)))).
Proof.
case: ps => [|p2 ps] // _ sx x_ lw_ k.
rewrite /sm_backward_sampling sx -/x_ -/lw_ -/k; cbv zeta.
rewrite E_bind; apply: eq_E => -[B al]; cbv beta iota.
have e1 : (k.+1 - 1)%N = k by rewrite subn1.
have e2 : (k.+1 - 2)%N = (size ps).+1 by [].
have e3 : (k.+1 - 3)%N = size ps by rewrite /k /= !subSS subn0.
rewrite e1 e2 e3 [k in iota 0 k](_ : k = (size ps).+2) // iota_rev map_cons.
set pr := nth p1 _; set xT := x_ k B.
rewrite E_bind.
have en : normalize (fun i => sm_Gamma_t ld scale valt ga gb (pr (size (p2 :: ps) - 1)%N) (pr (size (p2 :: ps)))
    (nth [ffun=> 0] xm1 (size xm1 - 2) i) (x_ (size ps).+1 i) xT + lw_ (size ps).+1 i)
  = normalize (fun l => Gam (x_ (size ps).+1 l) xT (pr (size ps).+1) + lw_ (size ps).+1 l).
  by apply: (@normalize_ext _ _ _ 0) => i; rewrite uni_t addr0.
rewrite en; apply: eq_bigr => B' _; congr (_ * _).
set y := x_ (size ps).+1 B'.
pose g (o : seq (X * 'I_n)) := f (rev (xT :: y :: unzip1 o), rev (B :: B' :: unzip2 o)).
apply: etrans (E_bind _ _ _) _.
apply: etrans (@E_bs key x_ (nth [ffun=> 0] xm1) lw_ pr p0 (size ps) y xT g).
apply: eq_E_always; apply: always_imp (@bs_carry _ _ _ _ ld scale valt ga gb y xT _) => -[c o] /= ->.
apply: eq_bigr => b _; congr (_ * _); rewrite /g.
by rewrite !rev_cons /unzip1 /unzip2 !map_cat /= !rev_cat /= -!cats1 -!catA.
Qed.

(** ** Forward pass *)
Definition proj4 (o : lwts * anc * pop * pop) : lwts * anc * pop := (o.1.1.1, o.1.1.2, o.2).

Lemma scan_uni w x xmm pm ps xs b bs key c (G : seq (lwts * anc * pop) -> R) :
  E (scan (als_body ld scale valt ga gb rs) (w, x, xmm) (als_inputs pm ps xs b bs key c)) (fun co => G [seq proj4 o | o <- co.2])
  = E (scan (aux_body rs (al_G_t_tilde ld scale valt gb) (@minus_max n') (@normalize n)) (w, x) (sinputs ps xs b bs key c))
      (fun co => G co.2).
Proof.
elim: ps pm xs b bs c w x xmm G => [|p ps IH] pm [|y xs] b [|b' bs] c w x xmm G //.
rewrite -[als_inputs _ _ _ _ _ _ _]/(SInp (pm, p) y b b' (split key c) :: als_inputs p ps xs b' bs key c.+1).
rewrite -[sinputs _ _ _ _ _ _]/(SInp p y b b' (split key c) :: sinputs ps xs b' bs key c.+1).
rewrite [scan _ _ _ in LHS]/= [scan _ _ _ in RHS]/= !E_bind /=; apply: eq_E => A; rewrite !E_bind.
have -> : als_G_t ld scale valt ga gb pm p (take_ax xmm A) (take_ax x A) y = al_G_t_tilde ld scale valt gb (take_ax x A) y p.
  by apply: functional_extensionality => i; rewrite /als_G_t uni_t.
move: (minus_max _) => lw.
by apply: etrans _ (etrans (IH p xs b' bs c.+1 (normalize lw) y (take_ax x A) (fun o => G ((lw, A, y) :: o))) _);
  apply: eq_E => -[co o].
Qed.

Lemma sm_aux_uni x xs s ss own qs e es :
  sm_aux scale (x :: xs) (s :: ss) (full_grad ga gb own x xs qs) (e :: es)
  = (x + scale s own + e) :: grad_aux scale gb x xs ss qs es.
Proof.
elim: xs x s ss own qs e es => [|y xs IH] x s [|t ss] own [|q qs] e [|e' es] //=; rewrite ga0 addr0 //.
  by case: (full_grad _ _ _ _ _ _).
by congr (_ :: _); exact: IH.
Qed.

(** ** The kernels *)
Lemma scanning_ext key bT (lw lw' : lwts) (x0 : pop) lw0 A x1 outs f :
  normalize lw = normalize lw' ->
  E (backward_scanning_pass mv key bT (lw0, x0, (lw, A, x1) :: outs)) f
  = E (backward_scanning_pass mv key bT (lw0, x0, (lw', A, x1) :: outs)) f.
Proof. by case: outs => [|[[lw2 A2] x2] outs] e //; rewrite /backward_scanning_pass /= e. Qed.

Lemma E_als_fwd key p0 p1 ps b0 b1 bs (y0 y1 : pop) ys F :
  E (als_forward ld scale val0 valt g0 ga gb rs key p0 p1 ps b0 b1 bs y0 y1 ys) F
  = E (rs (split key 3) (normalize (minus_max (al_G_0_tilde ld scale val0 g0 p0.1 p0.2 y0))) b0 b1 true) (fun A =>
      let lw1 := al_G_t_tilde ld scale valt gb (take_ax y0 A) y1 p1 in
      E (scan (als_body ld scale valt ga gb rs) (normalize (minus_max lw1), y1, take_ax y0 A) (als_inputs p1 ps ys b1 bs key 4))
        (fun co => F (Fwd (minus_max (al_G_0_tilde ld scale val0 g0 p0.1 p0.2 y0)) y0 A (take_ax y0 A) lw1 y1 co.2))).
Proof.
rewrite /als_forward E_bind.
have -> : als_G_0 ld scale val0 g0 p0 y0 = al_G_0_tilde ld scale val0 g0 p0.1 p0.2 y0.
  by apply: functional_extensionality => i; rewrite /als_G_0 uni_0.
apply: eq_E => A; rewrite E_bind.
have -> : als_G_1 ld scale valt g0 ga gb p0 p1 (take_ax y0 A) y1 = al_G_t_tilde ld scale valt gb (take_ax y0 A) y1 p1.
  by apply: functional_extensionality => i; rewrite /als_G_1 uni_1.
by cbv zeta; rewrite normalize_minus_max; apply: eq_E => -[co o].
Qed.

Lemma E_al_fwd key W0 p1 (ps : seq QQ) b0 b1 bs (y0 y1 : pop) ys F :
  E (aux_forward rs W0 (al_G_t_tilde ld scale valt gb) (@minus_max n') (@normalize n) key b0 (b1 :: bs) y0 (y1 :: ys) (p1 :: ps)) F
  = E (rs (split key 3) (normalize (minus_max (W0 y0))) b0 b1 true) (fun A =>
      let lw1 := minus_max (al_G_t_tilde ld scale valt gb (take_ax y0 A) y1 p1) in
      E (scan (aux_body rs (al_G_t_tilde ld scale valt gb) (@minus_max n') (@normalize n)) (normalize lw1, y1) (sinputs ps ys b1 bs key 4))
        (fun co => F (minus_max (W0 y0), y0, (lw1, A, y1) :: co.2))).
Proof.
rewrite /aux_forward E_bind -[sinputs _ _ _ _ _ _]/(SInp p1 y1 b0 b1 (split key 3) :: sinputs ps ys b1 bs key 4).
rewrite [scan _ _ _ in LHS]/= E_bind E_bind; apply: eq_E => A.
by rewrite -[LHS]/(E (do (c'', os) <- _; _) _) E_bind; cbv zeta; apply: eq_E => -[co o].
Qed.

Lemma als_scan_size c pm ps xs b bs key k : size xs = size ps -> size bs = size ps ->
  always (fun co => size co.2 = size ps) (scan (als_body ld scale valt ga gb rs) c (als_inputs pm ps xs b bs key k)).
Proof.
elim: ps pm c xs b bs k => [|p ps IH] pm c [|x xs] b [|b' bs] k // [s1] [s2].
rewrite -[als_inputs _ _ _ _ _ _ _]/(SInp (pm, p) x b b' (split key k) :: als_inputs p ps xs b' bs key k.+1).
apply/always_bind; apply: always_true => -[c' o]; apply/always_bind.
by apply: always_imp (IH p c' xs b' bs k.+1 s1 s2) => -[c'' os] /= ->.
Qed.

Lemma fin_uni key p0 p1 ps bT (backward : bool) lw0 x0 A0 x0r lw1 x1 outs f :
  size outs = size ps -> (backward -> (0 < size ps)%N) ->
  E (drop_weights (sm_finish ld scale valt g0 ga gb mv key p0 p1 ps bT backward (Fwd lw0 x0 A0 x0r lw1 x1 outs))) f
  = E (drop_weights (aux_backward mv Gam key bT (p1 :: ps) backward (lw0, x0, (minus_max lw1, A0, x1) :: [seq proj4 o | o <- outs]))) f.
Proof.
move=> so bw; rewrite /drop_weights E_bind [RHS]E_bind /sm_finish /aux_backward E_bind [RHS]E_bind.
case: backward bw => [/(_ isT) s0|_]; last first.
  apply: etrans (scanning_ext _ _ _ _ _ _ _ _ _) _; first exact/esym/(normalize_minus_max lw1).
  by apply: eq_E => -[xs Bs].
rewrite /sm_xs /sm_xs_m_1 /sm_log_ws [f_x0 _]/= [f_x1 _]/= [f_outs _]/= [f_lw0 _]/= [f_lw1 _]/=.
rewrite E_bsamp_uni //; last by rewrite /= size_map so.
rewrite /backward_sampling_pass; set o := (lw0, x0, _ :: _).
have sg : size (gens o) = (size ps).+2 by rewrite /= !size_map so.
rewrite sg [~~ true]/=; set k := (size ps).+1; rewrite -[k.+1.-1]/k.
pose d : lwts * pop := (fun=> 0, [ffun=> 0]).
set lws := [:: lw0, lw1 & _]; set xs := [:: x0, x1 & _].
have H t : (t <= k)%N -> (exists c, forall i, nth (fun=> 0) lws t i = (nth d (gens o) t).1 i + c) /\ nth [ffun=> 0] xs t = (nth d (gens o) t).2.
  case: t => [|[|t]] lt; first by split=> //; exists 0 => i; rewrite addr0.
    by split=> //; exists (amax lw1) => i; rewrite /= /minus_max subrK.
  have lto : (t < size outs)%N by rewrite so.
  have e : nth d (gens o) t.+2 = ((nth (d.1, A0, d.2, d.2) outs t).1.1.1, (nth (d.1, A0, d.2, d.2) outs t).2).
    by rewrite /gens /= -map_comp (nth_map (d.1, A0, d.2, d.2)).
  split; last by rewrite e /= (nth_map (d.1, A0, d.2, d.2)).
  by exists 0 => i; rewrite e addr0 /= (nth_map (d.1, A0, d.2, d.2)).
have lE : last_gen o = nth d (gens o) k.
  rewrite -[k]/(k.+1.-1) -sg nth_last; by case: (o) => -[l y] os.
have [[c hc] hx] := H k (leqnn k); rewrite (normalize_ext hc) hx lE.
case: (nth d (gens o) k) => lT xT; rewrite [(lT, xT).1]/= [(lT, xT).2]/=; cbv beta iota.
rewrite E_bind; apply: eq_E => -[B al]; cbv beta iota; rewrite E_bind [(B, al).1]/=.
pose g (os : seq (X * 'I_n)) := f (rev (xT B :: unzip1 os), rev (B :: unzip2 os)).
transitivity (E (scan (bwd_body Gam) (xT B) (bwd_inputs (split key 2) 0 (behead (rev (gens o))) (rev (p1 :: ps)))) (fun co => g co.2)); last first.
  by apply: eq_E => -[co os].
rewrite (@E_bwd _ _ _ _ _ _ _ _ _ g) (@zip_back _ _ _ _ k d p1) // -/g.
have L t : t \in rev (iota 0 k) -> (t <= k)%N by rewrite mem_rev mem_iota => /andP [_ /ltnW].
apply: back_alike; elim: (rev (iota 0 k)) L => [|t l IH] L //; split; last first.
  by apply: IH => t' it; apply: L; rewrite in_cons it orbT.
by have [[c' h] h'] := H t (L t (mem_head _ _)); split=> //=; exists c'.
Qed.

Lemma al_s_recovers key x0 xs b0 bs s0 ss qs (backward : bool) f : (0 < size qs)%N ->
  size ss = size qs -> size xs = size qs -> size bs = size qs -> (backward -> (1 < size qs)%N) ->
  E (drop_weights (als_kernel noise ld scale val0 valt g0 ga gb rs mv key x0 xs b0 bs s0 ss qs backward)) f
  = E (drop_weights (al_kernel noise ld scale rs mv val0 valt g0 gb key x0 xs b0 bs s0 ss qs backward)) f.
Proof.
move=> q0 z1 z2 z3 bw; 
rewrite /drop_weights E_bind [RHS]E_bind.
rewrite /als_kernel /al_kernel /al_forward.
rewrite E_bind [RHS]E_bind [RHS]E_bind.
apply: eq_E_always; apply: always_imp (@normals_size _ _ _ _) => -[e0 es]; rewrite size_map z1 => se; simpl in se.
rewrite sm_aux_uni; cbv beta iota zeta; rewrite E_bind [RHS]E_bind.
apply: eq_E_always; apply: always_imp (@normals_size _ _ _ _) => -[d0 ds]; rewrite size_map z1 => sd; simpl in sd.
move: (x0 + _ + e0) => u0; cbv beta iota.
have su : size (grad_aux scale gb x0 xs ss qs es) = size qs by rewrite grad_aux_size ?se ?z1.
move: (grad_aux _ _ _ _ _ _ _) su => us su.
case: qs q0 z1 z2 z3 se sd su bw => [|q qs] // _ z1 z2 z3 se sd su bw.
case: ss z1 => [|s ss] // [z1]; case: us su => [|u us] // [su]; case: xs z2 => [|x xs] // [z2]; case: bs z3 => [|b bs] // [z3].
case: ds sd => [|d ds] // [sd]; rewrite [behead _]/=.
rewrite -[zip _ _]/((s, u, q) :: zip (zip ss us) qs) -[mk_pops (u0 :: _) _ _ _]/(mk_pop u0 d0 b0 x0 :: mk_pop u d b x :: mk_pops us ds bs xs).
rewrite -[mk_pops (u :: us) _ _ _]/(mk_pop u d b x :: mk_pops us ds bs xs); cbv beta iota.
move: (mk_pop u0 d0 b0 x0) (mk_pop u d b x) => y0 y1.
have sm : size (mk_pops us ds bs xs : seq pop) = size qs by rewrite mk_pops_size ?su ?z2 ?z3 ?sd.
move: (mk_pops us ds bs xs) sm => ys sm.
have szp : size (zip (zip ss us) qs) = size qs by rewrite !size_zip z1 su !minnn.
move: (zip (zip ss us) qs) szp => ps szp; set p1 := (s, u, q).
rewrite -[last b0 (b :: bs)]/(last b bs); move: (last b bs) => bT.
rewrite E_bind [RHS]E_bind E_als_fwd E_al_fwd; apply: eq_E => A; cbv zeta.
rewrite [(s0, u0).1]/= [(s0, u0).2]/=.
set lw0 := minus_max (al_G_0_tilde _ _ _ _ _ _ _); set lw1 := al_G_t_tilde _ _ _ _ _ _ _.
have sb : size bs = size ps by rewrite szp.
have sy : size ys = size ps by rewrite szp.
have bw' : backward -> (0 < size ps)%N by move=> /bw; rewrite szp.
pose G (os : seq (lwts * anc * pop)) := E (drop_weights (aux_backward mv Gam key bT (p1 :: ps) backward (lw0, y0, (minus_max lw1, A, y1) :: os))) f.
transitivity (E (scan (als_body ld scale valt ga gb rs) (normalize (minus_max lw1), y1, take_ax y0 A) (als_inputs p1 ps ys b bs key 4))
  (fun co => G [seq proj4 o | o <- co.2])).
  apply: eq_E_always; apply: always_imp (als_scan_size _ _ _ _ _ sy sb) => -[co os] /= so.
  by rewrite /G -(@fin_uni key (s0, u0) p1 ps bT backward lw0 y0 A (take_ax y0 A) lw1 y1 os f so bw') /drop_weights E_bind.
by rewrite scan_uni; apply: eq_E => -[co os]; rewrite /G /drop_weights [LHS]E_bind.
Qed.
End Al.

(** ** atp_csmc_s.py *)
Section Atp.
Variables (X : finZmodType) (Q : Type).
Variables (ld : Q -> X -> R) (scale : Q -> X -> X) (prior0 r0 : X -> R) (prior rt : X -> X -> Q -> R).
Variables (g0 : X -> X) (ga gb : X -> X -> Q -> X).

Lemma atp_s_potentials (q0 : Q) (u0 : X) (pm : Q * X * Q) (u : X) (q : Q) xmm xm x :
  (forall a b q, ga a b q = 0) ->
  let val0 x := prior0 x + r0 x in let valt xm x q := prior xm x q + rt xm x q in
  [/\ sm_Gamma_0 ld scale val0 g0 (q0, u0) x = atp_Gamma_0 (ld q0) (scale q0) prior0 r0 g0 u0 x,
      sm_Gamma_1 ld scale valt g0 ga gb (q0, u0) (q, u, q) xm x = atp_Gamma_t ld scale prior rt gb xm x (u, q)
    & sm_Gamma_t ld scale valt ga gb pm (q, u, q) xmm xm x = atp_Gamma_t ld scale prior rt gb xm x (u, q)].
Proof.
by move=> ga0 val0 valt; case: (@reduces X Q Q ld scale val0 valt g0 ga gb (q0, u0) pm (q, u, q) xmm xm x ga0).
Qed.
End Atp.

Section Differ.
Local Notation X := [finZmodType of 'I_2].
Local Notation hf := (fun _ : X => 1 / 2%:R : R).
Local Notation z0 := (fun _ : X => 0 : R).
Local Notation nil := (fun _ : X => 0 : X).

(** A target on the group with two elements whose mass is not where the proposals go. *)
Lemma atp_s_differs n' m (rs : resampler n'.+1) (mv : mover n'.+1) key (backward : bool) :
  good_resampler rs -> good_mover mv -> (forall key w k, prob_vec w -> proper (mv key w k)) -> (0 < m)%N ->
  ~ (forall x0 xs b0 bs f, size xs = m -> size bs = m ->
      E (atps_kernel (fun=> hf) (fun=> z0) (fun _ => id) (w_val0 n') w_valt nil (fun _ _ _ => 0) (fun _ _ _ => 0) rs mv
           (fun _ => hf) (fun _ => z0) (fun _ _ => hf) (fun _ _ => z0) key x0 xs b0 bs tt (nseq m tt) (nseq m tt) backward) f
      = E (drop_weights (atp_kernel hf z0 (fun=> hf) (fun=> z0) id (fun=> id) hf z0 (fun=> hf) (fun=> z0) nil (fun _ _ _ => 0)
           z0 (fun _ _ _ => 0) (w_val0 n') w_valt nil (fun _ _ _ => 0) rs mv key x0 xs b0 bs (nseq m tt) backward)) f).
Proof.
move=> gr gm pm m0 H; have hp := w_law_prob.
have e0 : exp 0 = 1 :> R by exact: exp_0.
have ex (f : X -> R) : (forall z, f z = 0) -> exists c : R, c != 0 /\ forall z, exp (f z) = c * (1 / 2%:R).
  move=> fz; exists 2%:R; split; first by rewrite pnatr_eq0.
  by move=> z; rewrite fz e0; toR; field.
have inv := @atp_inv X n' unit hf z0 (fun=> hf) (fun=> z0) id (fun=> id) hf z0 (fun=> hf) (fun=> z0) nil (fun _ _ _ => 0)
  z0 (fun _ _ _ => 0) (w_val0 n') w_valt nil (fun _ _ _ => 0) rs mv key (nseq m tt) backward hp (fun=> hp) hp (fun=> hp) gr
  (ex z0 (fun=> erefl)) (fun=> ex z0 (fun=> erefl)) (ex z0 (fun=> erefl)) (fun=> ex z0 (fun=> erefl)) gm.
have hq : 0 <= 1 / 2%:R :> R by rewrite divr_ge0 ?ler01 ?ler0n.
have sz : size (nseq m tt) = m by rewrite size_nseq.
have q0 : (0 < size (nseq m tt))%N by rewrite sz.
have ts := two_states n' m; rewrite -{1 3}sz in ts.
have NI := @atps_not_invariant X n' unit unit (fun=> hf) (fun=> z0) (fun _ => id) (w_val0 n') w_valt nil (fun _ _ _ => 0) (fun _ _ _ => 0) rs mv
  (fun _ => hf) (fun _ => z0) (fun _ _ => hf) (fun _ _ => z0) (fun=> hp) (fun=> hp) (fun _ _ => hp) gr pm 0 (1 / 2%:R) hq tt (fun=> lexx _) key (nseq m tt) (nseq m tt) backward q0 erefl ts.
case: NI => f; have {inv} := inv f; rewrite !sz.
have -> : path_target (fun x : X => 0 + w_val0 n' x) (fun x y q => 0 + w_valt x y q) (nseq m tt) = path_target (w_val0 n') w_valt (nseq m tt).
  have -> : (fun x : X => 0 + w_val0 n' x) = w_val0 n' by apply: functional_extensionality => x; rewrite add0r.
  have -> // : (fun x y q => 0 + w_valt x y q) = w_valt.
  by do 3!apply: functional_extensionality => ?; rewrite add0r.
move=> <-; apply: eq_bigr => x0 _; apply: eq_bigr => b0 _; apply: eq_bigr => xs _; apply: eq_bigr => bs _.
by rewrite H ?size_tuple.
Qed.
End Differ.
