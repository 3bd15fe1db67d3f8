(** * SmoothFinal: the telescoping identity, every execution of the smoothing-gradient kernels,
    final forms for PropsSmooth, and witnesses. *)
From Coq Require Import Reals Lra.
From mathcomp Require Import all_ssreflect all_algebra.
From Verif Require Import RInst Prog ProgTheory Resampling Spec ResamplingProofs MoveProofs.
From Verif Require Import Csmc CsmcInvariance CsmcProofs KeyProofs CsmcSpecs CsmcFinal AuxCsmc SweepTheory AuxProofs AuxStruct AuxFinal.
From Verif Require Import TpFinal Smooth SmoothSpec PathTheory SmoothBack SmoothProofs.

Set Implicit Arguments.
Unset Strict Implicit.
Unset Printing Implicit Defensive.
Import GRing.Theory Num.Theory Order.TTheory.
Local Open Scope ring_scope.

(** ** The telescoping identity *)
Section Tele.
Variables (X : zmodType) (Q setting : Type).
Variables (ld : setting -> X -> R) (scale : setting -> X -> X).
Variables (val0 : X -> R) (valt : X -> X -> Q -> R).
Variables (g0 : X -> X) (ga gb : X -> X -> Q -> X).

Lemma full_gradient_last (q : nat -> Q) T x : full_gradient g0 ga gb q T.+2 x T.+1 = gb (x T) (x T.+1) (q T.+1).
Proof. by rewrite /full_gradient ltnn addr0. Qed.

Lemma factor (x u : nat -> X) (s : nat -> setting) (q : nat -> Q) m :
  sm_Gamma_0 ld scale val0 g0 (s 0%N, u 0%N) (x 0%N)
  + sm_Gamma_1 ld scale valt g0 ga gb (s 0%N, u 0%N) (s 1%N, u 1%N, q 1%N) (x 0%N) (x 1%N)
  + \sum_(i < m) sm_Gamma_t ld scale valt ga gb (s i.+1, u i.+1, q i.+1) (s i.+2, u i.+2, q i.+2) (x i) (x i.+1) (x i.+2)
  = full_log val0 valt q m.+2 x
    + \sum_(t < m.+2) ld (s t) (u t - (x t + scale (s t) (full_gradient g0 ga gb q m.+2 x t))).
Proof.
rewrite /full_log; elim: m => [|m IH].
  rewrite big_ord0 addr0 !big_ord_recl !big_ord0 !addr0 full_gradient_last.
  rewrite /sm_Gamma_0 /sm_Gamma_1 /full_gradient /= (addrC (g0 _)).
  by move: (ld _ _) (ld _ _) (ld _ _) (valt _ _ _) (val0 _); clear; move=> *; toR; lra.
rewrite big_ord_recr /= addrA IH.
rewrite [in RHS]big_ord_recr [in X in _ = _ + X]big_ord_recr [in X in _ = _ + (X + _)]big_ord_recr /=.
rewrite [\sum_(t < m.+2) ld _ _ in LHS]big_ord_recr /= !full_gradient_last.
have -> : full_gradient g0 ga gb q m.+3 x m.+1 = gb (x m) (x m.+1) (q m.+1) + ga (x m.+1) (x m.+2) (q m.+2).
  by rewrite /full_gradient ltnSn.
have -> : \sum_(t < m.+1) ld (s t) (u t - (x t + scale (s t) (full_gradient g0 ga gb q m.+3 x t)))
   = \sum_(t < m.+1) ld (s t) (u t - (x t + scale (s t) (full_gradient g0 ga gb q m.+2 x t))).
  apply: eq_bigr => t _; congr (ld _ (_ - (_ + scale _ _))).
  have l1 : (t.+1 < m.+2)%N by rewrite ltnS ltn_ord.
  by rewrite /full_gradient l1 (ltn_trans l1).
rewrite (addrC (gb (x m) _ _)) /sm_Gamma_t.
set S := \sum_(t < m.+1) ld _ _; set V := \sum_(i < m.+1) valt _ _ _.
by move: S V (ld _ _) (ld _ _) (ld _ _) (valt _ _ _) (val0 _); clear; move=> *; toR; lra.
Qed.
End Tele.

Section Aux.
Variables (X : zmodType) (Q setting : Type) (scale : setting -> X -> X).
Variables (g0 : X -> X) (ga gb : X -> X -> Q -> X).

Lemma full_grad_nth own x xs qs (q : nat -> Q) (f : nat -> X) k :
  size xs = size qs -> (k <= size xs)%N ->
  (forall i, (i <= size xs)%N -> f i = nth 0 (x :: xs) i) -> (forall i, (i < size qs)%N -> q i.+1 = nth (q 0%N) qs i) ->
  nth 0 (full_grad ga gb own x xs qs) k
  = (if k is k'.+1 then gb (f k') (f k) (q k) else own) + (if (k.+1 < (size xs).+1)%N then ga (f k) (f k.+1) (q k.+1) else 0).
Proof.
elim: qs own x xs q f k => [|p qs IH] own x [|x' xs] q f k //=.
  by move=> _; rewrite leqn0 => /eqP -> _ _ /=; rewrite addr0.
move=> [sz] le fE qE.
have f0 := fE 0%N isT; have f1 := fE 1%N isT; have q1 := qE 0%N isT; simpl in f0, f1, q1.
case: k le => [|k] le /=; first by rewrite f0 f1 q1.
rewrite (IH _ _ _ (fun i => if i is i'.+1 then q i'.+2 else q 0%N) (fun i => f i.+1)) //.
- by case: k le => [|k] le //=; rewrite f0 f1 q1.
- by move=> i li; rewrite (fE i.+1).
- by move=> i li; rewrite (qE i.+1).
Qed.

Lemma sm_aux_nth xs ss gs es k d : size ss = size xs -> size gs = size xs -> size es = size xs -> (k < size xs)%N ->
  nth 0 (sm_aux scale xs ss gs es) k = nth 0 xs k + scale (nth d ss k) (nth 0 gs k) + nth 0 es k.
Proof.
elim: xs ss gs es k => [|x xs IH] [|s ss] [|g gs] [|e es] [|k] //= [s1] [s2] [s3] lt.
exact: IH.
Qed.

Lemma full_grad_size (own x : X) xs qs : size xs = size qs -> size (full_grad ga gb own x xs qs) = (size qs).+1.
Proof. by elim: qs own x xs => [|q qs IH] own x [|x' xs] //= [sz]; rewrite IH. Qed.

Lemma aux_centred (x e : nat -> X) (s : nat -> setting) (q : nat -> Q) m t : (t <= m)%N ->
  nth 0 (sm_aux scale (mkseq x m.+1) (mkseq s m.+1)
           (full_grad ga gb (g0 (x 0%N)) (x 0%N) (mkseq (fun i => x i.+1) m) (mkseq (fun i => q i.+1) m)) (mkseq e m.+1)) t
  = x t + scale (s t) (full_gradient g0 ga gb q m.+1 x t) + e t.
Proof.
move=> le; rewrite (@sm_aux_nth _ _ _ _ _ (s 0%N)) ?full_grad_size ?size_mkseq ?ltnS //.
rewrite !nth_mkseq ?ltnS //; congr (_ + scale _ _ + _).
rewrite (@full_grad_nth _ _ _ _ q x) ?size_mkseq //.
- move=> [|i] // li; rewrite /= nth_mkseq //.
- by move=> i li; rewrite nth_mkseq.
Qed.
End Aux.

(** ** The gradient of the whole log-target *)
Section Slope.
Variables (X : lmodType R) (dot : X -> X -> R).
Hypothesis dotD : forall a b v, dot (a + b) v = dot a v + dot b v.

Lemma dot0 v : dot 0 v = 0.
Proof. by have := dotD 0 0 v; rewrite addr0 => /eqP; rewrite -subr_eq0 opprD addrA subrr sub0r oppr_eq0 => /eqP. Qed.

Lemma slope_add F G x a b : slope dot F x a -> slope dot G x b -> slope dot (fun z => F z + G z) x (a + b).
Proof. by move=> H1 H2 v; rewrite dotD; exact: derivable_pt_lim_plus (H1 v) (H2 v). Qed.

Lemma slope_const c x : slope dot (fun _ => c) x 0.
Proof. by move=> v; rewrite dot0; exact: derivable_pt_lim_const. Qed.

Lemma slope_ext F G x a : F =1 G -> slope dot F x a -> slope dot G x a.
Proof.
move=> e H v eps ep; have [d Hd] := H v eps ep; exists d => h h0 hd.
by rewrite -!e; exact: Hd.
Qed.

Variables (Q : Type) (val0 : X -> R) (valt : X -> X -> Q -> R) (g0 : X -> X) (ga gb : X -> X -> Q -> X).
Hypothesis H0 : forall x, slope dot val0 x (g0 x).
Hypothesis Ha : forall x y q, slope dot (fun z => valt z y q) x (ga x y q).
Hypothesis Hb : forall x y q, slope dot (fun z => valt x z q) y (gb x y q).
Variables (q : nat -> Q) (x : nat -> X).

Lemma set_same t z : set_time x t z t = z. Proof. by rewrite /set_time eqxx. Qed.
Lemma set_other t z i : i != t -> set_time x t z i = x i. Proof. by rewrite /set_time => /negbTE ->. Qed.

Lemma gradient_ok m t : (t <= m)%N ->
  slope dot (fun z => full_log val0 valt q m.+1 (set_time x t z)) (x t) (full_gradient g0 ga gb q m.+1 x t).
Proof.
rewrite /full_log; elim: m => [|m IH] le.
  move: le; rewrite leqn0 => /eqP ->; rewrite /full_gradient addr0.
  by apply: slope_ext (H0 (x 0%N)) => z; rewrite big_ord0 addr0 set_same.
have split_last z : val0 (set_time x t z 0%N) + \sum_(i < m.+1) valt (set_time x t z i) (set_time x t z i.+1) (q i.+1)
  = (val0 (set_time x t z 0%N) + \sum_(i < m) valt (set_time x t z i) (set_time x t z i.+1) (q i.+1))
    + valt (set_time x t z m) (set_time x t z m.+1) (q m.+1) by rewrite big_ord_recr /= addrA.
apply: (slope_ext (fun z => esym (split_last z))).
case: (ltngtP t m.+1) le => // [lt|->] _.
- have H := IH lt; move: lt; rewrite ltnS leq_eqVlt orbC => /orP [lt|/eqP e].
  + have -> : full_gradient g0 ga gb q m.+2 x t = full_gradient g0 ga gb q m.+1 x t + 0.
      by rewrite addr0 /full_gradient !ltnS lt (ltnW lt).
    apply: slope_add H _; apply: (slope_ext (F := fun=> valt (x m) (x m.+1) (q m.+1))); last exact: slope_const.
    by move=> z; rewrite !set_other // neq_ltn ?lt ?orbT // ltnS (ltnW lt) orbT.
  + have -> : full_gradient g0 ga gb q m.+2 x t = full_gradient g0 ga gb q m.+1 x t + ga (x m) (x m.+1) (q m.+1).
      by rewrite e /full_gradient !ltnS leqnn ltnn addr0.
    apply: slope_add H _; rewrite e; apply: slope_ext (Ha (x m) (x m.+1) (q m.+1)) => z.
    by rewrite set_same set_other // neq_ltn ltnSn orbT.
- rewrite full_gradient_last -[gb _ _ _]add0r; apply: slope_add.
    apply: (slope_ext (F := fun=> val0 (x 0%N) + \sum_(i < m) valt (x i) (x i.+1) (q i.+1))); last exact: slope_const.
    move=> z; rewrite set_other //; congr (_ + _); apply: eq_bigr => i _.
    by rewrite !set_other // neq_ltn ?ltnS ?ltn_ord // ltnW ?ltn_ord.
  apply: slope_ext (Hb (x m) (x m.+1) (q m.+1)) => z.
  by rewrite set_same set_other // neq_ltn ltnSn.
Qed.
End Slope.

(** ** Every execution *)
Section Exec.
Variables (X : finZmodType) (n' : nat) (Q setting : Type).
Local Notation n := n'.+1.
Local Notation pop := (pop X n').
Local Notation anc := (anc n').
Local Notation lwts := (lwts n').
Local Notation QQ := (setting * X * Q)%type.
Variables (noise ld : setting -> X -> R) (scale : setting -> X -> X).
Variables (val0 : X -> R) (valt : X -> X -> Q -> R).
Variables (g0 : X -> X) (ga gb : X -> X -> Q -> X).
Variables (rs : resampler n) (mv : mover n).
Local Notation bsamp := (sm_backward_sampling ld scale valt g0 ga gb mv).
Local Notation finish := (sm_finish ld scale valt g0 ga gb mv).

(** The states are those of the chosen particles. *)
Definition pick (p : pop * 'I_n) : X := p.1 p.2.
Definition selects (pops : seq pop) (r : seq X * seq 'I_n) : Prop :=
  r.1 = [seq pick p | p <- zip pops r.2] /\ size r.2 = size pops.

Lemma bsamp_selects key p0 p1 ps bT xs xm1 lws : (2 < size xs)%N ->
  always (selects xs) (bsamp key p0 p1 ps bT xs xm1 lws).
Proof.
move=> sz; rewrite /sm_backward_sampling.
apply/always_bind; apply: always_true => -[B al]; cbv beta iota zeta; apply/always_bind; apply: always_true => B1.
set ins := map _ _; set x1 := nth _ xs _ B1; set x2 := nth _ xs _ B.
apply/always_bind.
pose Rel (i : binp X n' Q setting) (o : X * 'I_n) := o.1 = b_x i o.2.
have H : forall c i, always (fun r => Rel i r.2) (@bs_body X n' Q setting ld scale valt ga gb c i).
  by move=> [a b] i; apply/always_bind; apply: always_true => j.
apply: always_imp (scan_always ins (x1, x2) H) => -[c os] /= al2.
have [e1 e2] : unzip1 os = [seq pick p | p <- zip (map (@b_x X n' Q setting) ins) (unzip2 os)] /\ size os = size ins.
  elim: (ins) os al2 {c} => [|i l IH] [|o os] //= [ro ros].
  by have [-> ->] := IH _ ros; rewrite ro.
have [m sm] : exists m, size xs = m.+3 by exists (size xs - 3)%N; rewrite -addn3 subnK.
have si : size ins = m by rewrite size_map size_rev size_iota sm !subSS subn0.
have be : map (@b_x X n' Q setting) ins = rev [seq nth [ffun=> 0] xs t | t <- iota 1 m].
  by rewrite /ins -map_comp -map_rev sm !subSS subn0; apply: eq_map.
have xsE : xs = nth [ffun=> 0] xs 0 :: [seq nth [ffun=> 0] xs t | t <- iota 1 m] ++ [:: nth [ffun=> 0] xs m.+1; nth [ffun=> 0] xs m.+2].
  have ie : iota 1 m.+2 = iota 1 m ++ [:: m.+1; m.+2] by rewrite -[in LHS]addn2 iotaD /= add1n.
  rewrite -[LHS](mkseq_nth [ffun=> 0] xs) /mkseq sm -[iota 0 m.+3]/(0%N :: iota 1 m.+2) ie.
  by rewrite map_cons map_cat.
move=> B0; split=> /=; last by rewrite size_cat size_rev size_map e2 si /= sm addn2.
rewrite [in RHS]xsE /=; congr (_ :: _).
have zc (s1 s2 : seq pop) (t1 t2 : seq 'I_n) : size s1 = size t1 -> zip (s1 ++ s2) (t1 ++ t2) = zip s1 t1 ++ zip s2 t2.
  by move=> ss; rewrite zip_cat.
rewrite zc ?map_cat; last by rewrite size_map size_iota size_rev size_map e2 si.
congr (_ ++ _).
  rewrite e1 be -map_rev rev_zip ?revK //; last by rewrite size_rev !size_map size_iota e2 si.
by rewrite /= /x1 /x2 sm subn1 subn2 /=.
Qed.

(** *** The reference (C29) and the shapes (C27) *)
Lemma selects_traced o r : selects (sm_xs o) r -> traced (sm_gens o) r.
Proof.
move=> [e1 e2]; have so : size (sm_xs o) = (size (sm_gens o).2).+1 by rewrite /sm_gens /= !size_map.
split; rewrite ?e2 ?so //; first by rewrite e1 size_map size_zip e2 minnn so.
move=> t le dx db dg; rewrite e1 (nth_map (nth [ffun=> 0] (sm_xs o) 0, db)); last by rewrite size_zip e2 minnn so ltnS.
rewrite nth_zip ?e2 // /pick /=; congr (fun_of_fin _ _).
rewrite (_ : sm_xs o = [seq g.2 | g <- gens (sm_gens o)]); first by rewrite (nth_map dg) // /= !size_map ltnS; move: le; rewrite /= size_map.
by rewrite /sm_xs /sm_gens /= -!map_comp.
Qed.

Lemma finish_traced key p0 p1 ps bT (backward : bool) o : (backward -> (0 < size (f_outs o))%N) ->
  always (fun r => traced (sm_gens o) r.1) (finish key p0 p1 ps bT backward o).
Proof.
move=> sz; apply/always_bind; case: backward sz => sz.
  by apply: always_imp (@bsamp_selects (split key 2) p0 p1 ps bT _ _ _ _) => [[a b] /selects_traced|] //=; rewrite size_map !ltnS; exact: sz.
by apply: always_imp (scanning_traced mv (split key 2) bT (sm_gens o)) => -[a b] [].
Qed.

Lemma All2_als (Rel : sinp X n' (QQ * QQ) -> lwts * anc * pop * pop -> Prop) pm pp b0 bs key c es us xs x0 os :
  size us = size pp -> size bs = size pp -> size xs = size pp -> size es = size pp ->
  All2 Rel (als_inputs pm pp (mk_pops us es bs xs) b0 bs key c) os ->
  size os = size xs /\ forall t, (t < size xs)%N -> forall dflt,
    exists i, [/\ Rel i (nth dflt os t), s_b i = nth b0 bs t, s_x i (nth b0 bs t) = nth x0 xs t
                & s_bm1 i = nth b0 (b0 :: bs) t].
Proof.
elim: pp pm b0 bs c es us xs os => [|p pp IH] pm b0 [|b bs] c [|po es] [|u us] [|x xs] [|o os] //=.
move=> [s1] [s2] [s3] [s4] [ro ros].
have [-> H] := IH p b bs c.+1 es us xs os s1 s2 s3 s4 ros; split=> // -[|t] lt dflt.
  exists (SInp (pm, p) (mk_pop u po b x) b0 b (split key c)); split=> //=.
  by rewrite /mk_pop upd_same.
have [i [r e1 e2 e3]] := H t lt dflt; exists i; split=> //=.
- by rewrite e1; apply: set_nth_default; rewrite s2 -s3.
- by rewrite -e2; congr (s_x i _); apply: set_nth_default; rewrite s2 -s3.
- rewrite e3; apply: set_nth_default; rewrite /= s2 -s3.
  exact: ltnW.
Qed.

Local Notation afwd := (als_forward ld scale val0 valt g0 ga gb rs).

Lemma als_keeps key p0 p1 ps b0 b1 bs x0 x1 xs u0 e0 u1 e1 us es : keeps rs ->
  size us = size ps -> size bs = size ps -> size xs = size ps -> size es = size ps ->
  always (fun o => keeps_ref x0 (x1 :: xs) b0 (b1 :: bs) (sm_gens o))
    (afwd key p0 p1 ps b0 b1 bs (mk_pop u0 e0 b0 x0) (mk_pop u1 e1 b1 x1) (mk_pops us es bs xs)).
Proof.
move=> kp s1 s2 s3 s4; rewrite /als_forward; cbv zeta; apply/always_bind; apply: always_imp (kp _ _ _ _) => A0 hA0.
apply/always_bind.
pose Rel (i : sinp X n' (QQ * QQ)) (s : lwts * anc * pop * pop) := s.2 = s_x i /\ s.1.1.2 (s_b i) = s_bm1 i.
have H : forall c i, always (fun r => Rel i r.2) (als_body ld scale valt ga gb rs c i).
  by move=> [[w x] x'] i; apply/always_bind; apply: always_imp (kp _ _ _ _) => A Ab.
apply: always_imp (scan_always _ _ H) => -[c os] al /=.
have [so Ho] := All2_als x1 s1 s2 s3 s4 al; split=> //=; first by rewrite /mk_pop upd_same.
  by rewrite size_map so.
move=> [|t] lt dflt /=; first by rewrite /mk_pop upd_same hA0.
pose do4 : lwts * anc * pop * pop := (dflt.1.1, dflt.1.2, dflt.2, dflt.2).
rewrite (nth_map do4) ?so //=.
have [i [[e2 e3] eb ex em]] := Ho t lt do4.
have nb : nth b0 bs t = nth b1 bs t by apply: set_nth_default; rewrite s2 -s3.
have nb' : nth b0 (b1 :: bs) t = nth b1 (b1 :: bs) t by apply: set_nth_default; rewrite /= s2 -s3; exact: ltnW.
rewrite e2 nb ex -eb e3 em -nb'; split=> //.
by apply: set_nth_default.
Qed.

Local Notation akern := (als_kernel noise ld scale val0 valt g0 ga gb rs mv).

Lemma als_shape key x0 xs b0 bs s0 ss qs (backward : bool) : keeps rs -> (0 < size qs)%N ->
  size ss = size qs -> size bs = size qs -> size xs = size qs ->
  (backward -> (1 < size qs)%N) ->
  always (keeps_shape x0 xs b0 bs) (akern key x0 xs b0 bs s0 ss qs backward).
Proof.
move=> kp q0 s1 s2 s3 bw; apply: normals_shape => e0 es; rewrite size_map s1 => se; cbv zeta.
apply: normals_shape => d0 ds; rewrite size_map s1 => sd.
have sf := full_grad_size ga gb (g0 x0) x0 s3.
case: (full_grad ga gb (g0 x0) x0 xs qs) sf => [|g gs] // [sg] /=.
have := @SmoothProofs.sm_aux_size X setting scale xs ss gs es; rewrite s3 sg se s1 => /(_ erefl erefl erefl).
move: (sm_aux scale xs ss gs es) => us su.
case: qs q0 s1 s2 s3 bw su sd {sg se} => [|q qs] // _ s1 s2 s3 bw su sd.
case: ss s1 => [|s ss] // [s1]; case: us su => [|u us] // [su]; case: xs s3 => [|x xs] // [s3].
case: bs s2 => [|b bs] // [s2]; case: ds sd => [|d ds] // [sd] /=.
set ps := zip (zip ss us) qs; have sp : size ps = size qs by rewrite !size_zip s1 su !minnn.
apply/always_bind.
have H := @als_keeps key (s0, x0 + scale s0 g + e0) (s, u, q) ps b0 b bs x0 x xs (x0 + scale s0 g + e0) d0 u d us ds kp.
rewrite sp su s2 s3 sd in H; apply: always_imp (H erefl erefl erefl erefl) => o ko.
have sz : size (f_outs o) = size qs by have [_ + _] := ko; rewrite /= size_map s3 => -[].
have bw' : backward -> (0 < size (f_outs o))%N by rewrite sz; exact: bw.
apply: always_imp (finish_traced key _ _ _ _ bw') => -[[a c] l] /= tr.
have [t1 t2 _] := tr; split=> //=; last exact: (keeps_traced ko tr).
  by rewrite t1 /= size_map sz s3.
by rewrite t2 /= size_map sz s2.
Qed.

(** With two time steps, backward sampling returns three states. *)
Lemma bsamp_two key p0 p1 ps bT xs xm1 lws : size xs = 2%N ->
  always (fun r => size r.1 = 3%N /\ size r.2 = 3%N) (bsamp key p0 p1 ps bT xs xm1 lws).
Proof.
move=> sz; rewrite /sm_backward_sampling sz.
apply/always_bind; apply: always_true => -[B al]; cbv beta iota zeta; apply/always_bind; apply: always_true => B1.
by apply/always_bind => /= B0.
Qed.

Lemma als_two key x0 x1 b0 b1 s0 s1 q :
  always (fun r => size r.1.1 = 3%N /\ size r.1.2 = 3%N) (akern key x0 [:: x1] b0 [:: b1] s0 [:: s1] [:: q] true).
Proof.
apply: normals_shape => e0 [|e1 [|? ?]] // _; cbv zeta; apply: normals_shape => d0 [|d1 [|? ?]] // _ /=.
rewrite /als_forward; cbv zeta; apply/always_bind/always_bind; apply: always_true => A0 /=.
rewrite /sm_finish; apply/always_bind; apply: always_imp (bsamp_two _ _ _ _ _ _ _ _) => [[a c]|] //.
Qed.

(** *** Lineages (C28) *)
Fixpoint lineage (x : pop) (outs : seq (lwts * anc * pop * pop)) : Prop :=
  if outs is o :: outs' then o.1.2 = take_ax x o.1.1.2 /\ lineage o.2 outs' else True.

Lemma scan_lineage I (body : ('I_n -> R) * pop * pop -> I -> prog (('I_n -> R) * pop * pop * (lwts * anc * pop * pop))) ins c :
  (forall c i, always (fun r => r.2.1.2 = take_ax c.1.2 r.2.1.1.2 /\ r.1.1.2 = r.2.2) (body c i)) ->
  always (fun co => lineage c.1.2 co.2) (scan body c ins).
Proof.
move=> H; elim: ins c => [|i ins IH] c //=; apply/always_bind; apply: always_imp (H c i) => -[c' o] /= [e1 e2].
by apply/always_bind; apply: always_imp (IH c') => -[c'' os] /=; rewrite e2.
Qed.

Lemma lineage_nth d dA x outs t : lineage x outs -> (t < size outs)%N ->
  nth d [seq i.1.2 | i <- outs] t = take_ax (nth d (x :: [seq i.2 | i <- outs]) t) (nth dA [seq i.1.1.2 | i <- outs] t).
Proof. by elim: outs x t => [|o outs IH] x [|t] //= [e l] lt //; exact: IH. Qed.

Lemma own_later d dA o t : lineage (f_x1 o) (f_outs o) -> (0 < t)%N -> (t < (size (f_outs o)).+1)%N ->
  own_predecessors d dA (sm_xs o) (sm_As o) (sm_xs_m_1 o) t.
Proof. by case: t => [|t] // l _ lt i; rewrite /= (lineage_nth _ dA l) // ffunE. Qed.

Lemma als_lineage key p0 p1 ps b0 b1 bs x0 x1 xs :
  always (fun o => f_x0r o = take_ax (f_x0 o) (f_A0 o) /\ lineage (f_x1 o) (f_outs o))
    (afwd key p0 p1 ps b0 b1 bs x0 x1 xs).
Proof.
rewrite /als_forward; cbv zeta; apply/always_bind; apply: always_true => A0; apply/always_bind.
have H : forall c i, always (fun r => r.2.1.2 = take_ax c.1.2 r.2.1.1.2 /\ r.1.1.2 = r.2.2) (als_body ld scale valt ga gb rs c i).
  by move=> [[w x] x'] i; apply/always_bind; apply: always_true => A.
by apply: always_imp (scan_lineage _ _ H) => -[c os].
Qed.

Variables (law0 lpdf0 : setting * X -> X -> R) (law lpdf : QQ -> X -> X -> R).
Local Notation tfwd := (atps_forward ld scale val0 valt g0 ga gb rs law0 lpdf0 law lpdf).

Lemma atps_lineage key p0 p1 ps b0 b1 bs :
  always (fun o => f_x0r o = take_ax (f_x0 o) (f_A0 o) /\ lineage (f_x1 o) (f_outs o))
    (tfwd key p0 p1 ps b0 b1 bs).
Proof.
rewrite /atps_forward; cbv zeta; apply/always_bind; apply: always_true => x0; apply/always_bind; apply: always_true => A0.
apply/always_bind; apply: always_true => x1; apply/always_bind.
have H : forall c i, always (fun r => r.2.1.2 = take_ax c.1.2 r.2.1.1.2 /\ r.1.1.2 = r.2.2)
    (atps_body ld scale valt ga gb rs law lpdf c i).
  move=> [[w x] x'] i; apply/always_bind; apply: always_true => A; apply/always_bind; apply: always_true => xt //.
by apply: always_imp (scan_lineage _ _ H) => -[c os].
Qed.

Lemma atps_size key p0 p1 ps b0 b1 bs : size bs = size ps ->
  always (fun o => size (f_outs o) = size ps) (tfwd key p0 p1 ps b0 b1 bs).
Proof.
move=> sb; rewrite /atps_forward; cbv zeta; apply/always_bind; apply: always_true => x0; apply/always_bind; apply: always_true => A0.
apply/always_bind; apply: always_true => x1; apply/always_bind.
apply: always_imp (scan_size _ _ _) => -[c os] /= ->.
by elim: ps bs sb p1 b1 (4%N) {A0 x0 x1 c os} => [|p ps IH] [|b bs] //= [sz] p1 b1 c; rewrite IH.
Qed.

Local Arguments atps_forward : simpl never.
Local Notation tkern := (atps_kernel noise ld scale val0 valt g0 ga gb rs mv law0 lpdf0 law lpdf).

Lemma atps_shape key x0 xs b0 bs s0 ss qs (backward : bool) : (0 < size qs)%N ->
  size ss = size qs -> size bs = size qs -> size xs = size qs ->
  (backward -> (1 < size qs)%N) ->
  always (fun r => size r.1 = (size qs).+1 /\ size r.2 = (size qs).+1) (tkern key x0 xs b0 bs s0 ss qs backward).
Proof.
move=> q0 s1 s2 s3 bw; apply: normals_shape => e0 es; rewrite size_map s1 => se; cbv zeta.
have sf := full_grad_size ga gb (g0 x0) x0 s3.
have step p0 p1 ps b bs' bT : size bs' = size ps -> (size ps).+1 = size qs ->
    always (fun r => size r.1 = (size qs).+1 /\ size r.2 = (size qs).+1)
      (do o <- tfwd key p0 p1 ps b0 b bs'; do (xs, Bs, _) <- finish key p0 p1 ps bT backward o; Ret (xs, Bs)).
  move=> sb sp; apply/always_bind; apply: always_imp (atps_size _ _ _ _ _ sb) => o so.
  have bw' : backward -> (0 < size (f_outs o))%N by rewrite so -ltnS sp; exact: bw.
  apply/always_bind; apply: always_imp (finish_traced key _ _ _ _ bw') => -[[a c] l] /= [t1 t2 _].
  by rewrite t1 t2 /= size_map so sp.
case: (full_grad ga gb (g0 x0) x0 xs qs) sf => [|g gs] // [sg].
have := @SmoothProofs.sm_aux_size X setting scale xs ss gs es; rewrite s3 sg se s1 => /(_ erefl erefl erefl).
rewrite [sm_aux _ (x0 :: _) _ _ _]/=.
move: (sm_aux scale xs ss gs es) => us su.
case: qs q0 s1 s2 s3 bw su step {sg se} => [|q qs] // _ s1 s2 s3 bw su step.
case: ss s1 => [|s ss] // [s1]; case: us su => [|u us] // [su]; case: xs s3 => [|x xs] // [s3].
case: bs s2 => [|b bs] // [s2].
have sp : size (zip (zip ss us) qs) = size qs by rewrite !size_zip s1 su !minnn.
by apply: step; rewrite sp ?s2.
Qed.

Lemma atps_two key x0 x1 b0 b1 s0 s1 q :
  always (fun r => size r.1 = 3%N /\ size r.2 = 3%N) (tkern key x0 [:: x1] b0 [:: b1] s0 [:: s1] [:: q] true).
Proof.
apply: normals_shape => e0 [|e1 [|? ?]] // _; cbv zeta.
have step p0 p1 b bT :
    always (fun r => size r.1 = 3%N /\ size r.2 = 3%N)
      (do o <- tfwd key p0 p1 [::] b0 b [::]; do (xs, Bs, _) <- finish key p0 p1 [::] bT true o; Ret (xs, Bs)).
  apply/always_bind; apply: always_imp (@atps_size key p0 p1 [::] b0 b [::] erefl) => o so.
  apply/always_bind; rewrite /sm_finish; apply/always_bind; apply: always_imp (bsamp_two _ _ _ _ _ _ _ _) => [[a c]|] //.
  by rewrite /= size_map so.
exact: step.
Qed.
End Exec.
