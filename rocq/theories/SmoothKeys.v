(** * SmoothKeys: pseudo-random keys in al_csmc_s.py and atp_csmc_s.py. *)
From Coq Require Import Reals.
From mathcomp Require Import all_ssreflect all_algebra.
From Verif Require Import RInst Prog ProgTheory Resampling Csmc KeyProofs CsmcProofs AuxCsmc SweepTheory AuxStruct TpFinal
  Smooth SmoothSpec SmoothProofs SmoothFinal.

Set Implicit Arguments.
Unset Strict Implicit.
Unset Printing Implicit Defensive.
Import GRing.Theory Num.Theory Order.TTheory.
Local Open Scope ring_scope.

Lemma always_runs A (m : prog A) P ks a : always P m -> runs m ks a -> P a.
Proof.
elim: m ks => [b|k B p g IH] ks /=; first by move=> Pb [_ ->].
by move=> al [b [ks' [_ r]]]; apply: IH (al b) r.
Qed.

Lemma uses_bind_if rs1 rs2 A C (m : prog A) (g : A -> prog C) (P : A -> Prop) :
  allrel indep rs1 rs2 -> uses rs1 m -> always P m -> (forall a, P a -> uses rs2 (g a)) -> uses (rs1 ++ rs2) (bind m g).
Proof.
move=> ar u al ug ks c /runs_bind [ks1 [ks2 [a [-> r1 r2]]]].
have U : uses (rs1 ++ rs2) (bind m (fun _ => g a)).
  by apply: uses_bind => // _; exact: ug (always_runs al r1).
by apply: (U _ c); apply/runs_bind; exists ks1, ks2, a.
Qed.

(** [live m]: every draw has an outcome, so [m] has an execution. *)
Fixpoint live A (m : prog A) : Prop :=
  match m with Ret _ => True | Draw _ B _ g => (exists b : B, True) /\ forall b, live (g b) end.

Lemma live_bind A C (m : prog A) (g : A -> prog C) : live m -> (forall a, live (g a)) -> live (bind m g).
Proof. by move=> + lg; elim: m => [a|k B p h IH] //= [ex lh]; split=> // b; exact: IH. Qed.

Lemma live_scan (C I O : Type) (body : C -> I -> prog (C * O)) ins c : (forall c i, live (body c i)) -> live (scan body c ins).
Proof.
move=> lb; elim: ins c => [|i ins IH] c //=; apply: live_bind => // -[c' o]; apply: live_bind => // -[c'' os] //.
Qed.

Lemma live_runs A (m : prog A) : live m -> exists ks a, runs m ks a.
Proof.
elim: m => [a _|k B p g IH [[b _] lg]]; first by exists [::], a.
by have [ks [a r]] := IH b (lg b); exists (k :: ks), a; exists b, ks.
Qed.

(** A key drawn from twice. *)
Lemma twice_bind A C (m : prog A) (g : A -> prog C) (P : A -> Prop) : live m -> always P m ->
  (forall a, P a -> exists ks c, runs (g a) ks c /\ ~~ antichain ks) -> exists ks c, runs (bind m g) ks c /\ ~~ antichain ks.
Proof.
move=> /live_runs [ks [a r]] al H; have [ks' [c [r' na]]] := H a (always_runs al r); exists (ks ++ ks'), c; split.
  by apply/runs_bind; exists ks, ks', a.
by apply: contra na; rewrite /antichain pairwise_cat => /and3P [].
Qed.

Lemma antichain_rev s : pairwise indep s -> pairwise indep (rev s).
Proof.
elim: s => [|k s IH] //= /andP [al /IH pw]; rewrite rev_cons -cats1 pairwise_cat pw /= andbT allrel1r all_rev.
by under eq_all do rewrite indepC.
Qed.

Section Keys.
Variables (X : finZmodType) (n' : nat).
Local Notation n := n'.+1.
Variables (Q setting : Type).
Local Notation QQ := (setting * X * Q)%type.
Local Notation pop := (pop X n').
Local Notation lwts := (lwts n').
Local Notation anc := (anc n').
Local Notation fwd := (fwd X n').
Variables (noise ld : setting -> X -> R) (scale : setting -> X -> X).
Variables (val0 : X -> R) (valt : X -> X -> Q -> R) (g0 : X -> X) (ga gb : X -> X -> Q -> X).
Variables (rs : resampler n) (mv : mover n).

Local Notation bsamp := (sm_backward_sampling ld scale valt g0 ga gb mv).
Local Notation finish := (sm_finish ld scale valt g0 ga gb mv).
Local Notation afwd := (als_forward ld scale val0 valt g0 ga gb rs).
Local Notation akern := (als_kernel noise ld scale val0 valt g0 ga gb rs mv).
Variables (law0 lpdf0 : setting * X -> X -> R) (law lpdf : QQ -> X -> X -> R).
Local Notation tfwd := (atps_forward ld scale val0 valt g0 ga gb rs law0 lpdf0 law lpdf).
Local Notation tkern := (atps_kernel noise ld scale val0 valt g0 ga gb rs mv law0 lpdf0 law lpdf).

Section Ok.
Hypothesis rs_key : forall key w i j b, uses [:: key] (rs key w i j b).
Hypothesis mv_key : forall key w k, uses [:: key] (mv key w k).

Lemma uses_bsamp key p0 p1 ps bT (xs : seq pop) xm1 lws : (2 < size xs)%N ->
  uses [:: key] (bsamp key p0 p1 ps bT xs xm1 lws).
Proof.
move=> sz; rewrite /sm_backward_sampling; move E : (size xs) sz => T; case: T E => [|[|[|T]]] // E _.
have -> : (T.+3 - 3)%N = T by rewrite !subSS subn0.
cbv zeta.
have -> : (T.+3 - 1)%N = T.+2 by rewrite subSS subn0.
have -> : (T.+3 - 2)%N = T.+1 by rewrite !subSS subn0.
set ins := [seq BInp _ _ _ _ _ _ _ | t <- rev (iota 1 T)].
have ek : [seq b_key i | i <- ins] = rev (kids key 1 T) by rewrite /ins -map_comp /kids map_rev.
have io a j : (a < j)%N -> all (indep (split key j)) (rev (kids key 1 T)) || (j <= T)%N.
  move=> _; case: (leqP j T) => [|lt]; first by rewrite orbT.
  rewrite orbF all_rev; apply/allP => k /mapP [i]; rewrite mem_iota add1n ltnS => /andP [_ le] ->.
  by apply: indep_split; rewrite neq_ltn (leq_ltn_trans le lt) orbT.
have i2 : all (indep (split key T.+2)) (rev (kids key 1 T)) by have := io 0%N T.+2 isT; rewrite ltnNge leqW ?leqnSn ?orbF.
have i1 : all (indep (split key T.+1)) (rev (kids key 1 T)) by have := io 0%N T.+1 isT; rewrite ltnn orbF.
have i0 : all (indep (split key 0)) (rev (kids key 1 T)) by rewrite all_rev; exact: kid_indep.
apply: (@uses_root ([:: split key T.+2] ++ ([:: split key T.+1] ++ (rev (kids key 1 T) ++ [:: split key 0])))).
  by rewrite /= !below_split /= all_cat all_rev kids_below /= below_split.
apply: uses_bind => [||[B al]].
- by rewrite allrel1l /= all_cat i2 /= !indep_split // neq_ltn ltnSn orbT.
- exact: mv_key.
apply: uses_bind => [||B1].
- by rewrite allrel1l /= all_cat i1 /= !indep_split.
- exact: uses_draw.
apply: uses_bind => [||[c os]].
- by rewrite allrel1r; under eq_all do rewrite indepC.
- rewrite -ek; apply: uses_scan => [|[y z] i].
    by rewrite ek; apply: antichain_rev; exact: kids_indep.
  by apply: uses_ret_bind; exact: uses_draw.
by apply: uses_ret_bind; exact: uses_draw.
Qed.

Lemma uses_finish key p0 p1 ps bT (backward : bool) (o : fwd) : (backward -> (0 < size (f_outs o))%N) ->
  uses [:: split key 2] (finish key p0 p1 ps bT backward o).
Proof.
move=> sz; rewrite -[[:: split key 2]]cats0; apply: uses_bind => [||[a b]]; first by rewrite allrel0r.
  by case: backward sz => sz; [apply: uses_bsamp; rewrite /= size_map !ltnS; exact: sz|exact: uses_scanning].
exact: uses_ret.
Qed.

Lemma als_keys pm ps (xs : seq pop) b bs key c :
  exists m, (m <= size bs)%N /\ [seq s_key i | i <- @als_inputs X n' Q setting pm ps xs b bs key c] = kids key c m.
Proof.
elim: ps pm xs b bs c => [|p ps IH] pm xs b bs c; first by exists 0%N.
case: xs bs => [|x xs] [|b' bs]; try by exists 0%N.
by have [m /= [le ->]] := IH p xs b' bs c.+1; exists m.+1.
Qed.

Lemma als_outs key p0 p1 ps b0 b1 bs x0 x1 xs : size bs = size ps -> size xs = size ps ->
  always (fun o => size (f_outs o) = size ps) (afwd key p0 p1 ps b0 b1 bs x0 x1 xs).
Proof.
move=> s1 s2; rewrite /als_forward; cbv zeta; apply/always_bind; apply: always_true => A0; apply/always_bind.
apply: always_imp (scan_size _ _ _) => -[c os] /= ->.
by elim: ps bs xs s1 s2 p1 b1 (4%N) {A0 c os} => [|p ps IH] [|b bs] [|x xs] //= [s1] [s2] p1 b1 c; rewrite IH.
Qed.

Lemma kids_mono key c m m' A (p : prog A) : (m <= m')%N -> uses (kids key c m) p -> uses (kids key c m') p.
Proof.
move=> le; apply: uses_sub => r /mapP [i]; rewrite mem_iota => /andP [l1 l2] ->.
apply/hasP; exists (split key i); last by rewrite /below prefix_refl.
by apply/mapP; exists i => //; rewrite mem_iota l1 (leq_trans l2) // leq_add2l.
Qed.

Lemma uses_als_fwd key p0 p1 ps b0 b1 bs x0 x1 xs :
  uses (kids key 3 (size bs).+1) (afwd key p0 p1 ps b0 b1 bs x0 x1 xs).
Proof.
have [m [le e]] := als_keys p1 ps xs b1 bs key 4.
apply: (@kids_mono key 3 m.+1); first by rewrite ltnS.
rewrite -[kids _ _ _]/([:: split key 3] ++ kids key 4 m).
apply: uses_bind => [||A0]; first by rewrite allrel1l kid_indep.
  exact: rs_key.
rewrite -[kids _ _ _]cats0; apply: uses_bind => [||[c os]]; first by rewrite allrel0r.
  rewrite -e; apply: uses_scan => [|[[w x] x'] i]; first by rewrite e kids_indep.
  by apply: uses_ret_bind; exact: rs_key.
exact: uses_ret.
Qed.

Lemma mk_pops_size us es bs (xs : seq X) : size es = size us -> size bs = size us -> size xs = size us ->
  size (mk_pops us es bs xs : seq pop) = size us.
Proof. by elim: us es bs xs => [|u us IH] [|e es] [|b bs] [|x xs] //= [s1] [s2] [s3]; rewrite IH. Qed.

Lemma I32 key m : allrel indep (kids key 3 m) [:: split key 2].
Proof. by rewrite allrel1r; under eq_all do rewrite indepC; exact: kid_indep. Qed.

Lemma uses_als key x0 xs b0 bs s0 ss qs (backward : bool) :
  size ss = size qs -> size bs = size qs -> size xs = size qs -> (backward -> (1 < size qs)%N) ->
  uses [:: key] (akern key x0 xs b0 bs s0 ss qs backward).
Proof.
move=> s1 s2 s3 bw.
apply: (@uses_root ([:: split key 1] ++ ([:: split key 0] ++ (kids key 3 (size bs) ++ [:: split key 2])))).
  by rewrite /= !below_split /= all_cat kids_below /= below_split.
apply: uses_bind_if (@normals_size _ _ _ _) _ => [||[e0 es]].
- by rewrite allrel1l /= indep_split //= all_cat kid_indep //= indep_split.
- exact: uses_normals.
rewrite [_.2]/= size_map s1 => se; cbv zeta.
apply: uses_bind_if (@normals_size _ _ _ _) _ => [||[d0 ds]].
- by rewrite allrel1l /= all_cat kid_indep //= indep_split.
- exact: uses_normals.
rewrite [_.2]/= size_map s1 => sd.
have sf := full_grad_size ga gb (g0 x0) x0 s3.
case: (full_grad ga gb (g0 x0) x0 xs qs) sf => [|g gs] // [sg].
have := @SmoothProofs.sm_aux_size X setting scale xs ss gs es; rewrite s3 sg se s1 => /(_ erefl erefl erefl).
rewrite [sm_aux _ (x0 :: _) _ _ _]/=.
move: (sm_aux scale xs ss gs es) => us su.
have step p0 p1 ps b bs' bT (y0 y1 : pop) ys : size bs' = size ps -> size ys = size ps -> (size ps).+1 = size qs ->
    uses (kids key 3 (size bs) ++ [:: split key 2])
      (do o <- afwd key p0 p1 ps b0 b bs' y0 y1 ys; finish key p0 p1 ps bT backward o).
  move=> e1 e2 e3; apply: uses_bind_if (@als_outs key p0 p1 ps b0 b bs' y0 y1 ys e1 e2) _ => [||o so]; first exact: I32.
    by rewrite s2 -e3 -e1; exact: uses_als_fwd.
  by apply: uses_finish; rewrite so -ltnS e3.
case: qs s1 s2 s3 bw su sd step {sg se} => [|q qs] s1 s2 s3 bw su sd step.
  by case: bs {s2 step} => [|b bs]; case: us su => //= _; exact: uses_ret.
case: ss s1 => [|s ss] // [s1]; case: us su => [|u us] // [su]; case: xs s3 => [|x xs] // [s3].
case: bs s2 step => [|b bs] // [s2] step; case: ds sd => [|d ds] // [sd].
have sp : size (zip (zip ss us) qs) = size qs by rewrite !size_zip s1 su !minnn.
by apply: step; rewrite ?sp ?s2 // mk_pops_size ?sd ?su ?s2 ?s3.
Qed.

Lemma atps_keys pm ps b bs key c :
  exists m, (m <= size bs)%N /\ [seq p_key i | i <- @atps_inputs X n' Q setting pm ps b bs key c] = kids key c m.
Proof.
elim: ps pm b bs c => [|p ps IH] pm b bs c; first by exists 0%N.
case: bs => [|b' bs]; try by exists 0%N.
by have [m /= [le ->]] := IH p b' bs c.+1; exists m.+1.
Qed.

Lemma indep_sub key i j k : i != j -> indep (split (split key i) k) (split key j).
Proof.
move=> ij; apply: (@indep_below (split key i) (split key j)); rewrite ?indep_split ?below_split //.
by rewrite /below prefix_refl.
Qed.

Lemma uses_atps_fwd key p0 p1 ps b0 b1 bs :
  uses ([:: split key 0] ++ kids key 3 (size bs).+1) (tfwd key p0 p1 ps b0 b1 bs).
Proof.
have [m [le e]] := atps_keys p1 ps b1 bs key 4.
have ki i c : (0 < c)%N -> all (indep (split (split key 0) i)) (kids key c m).
  move=> c0; apply/allP => k /mapP [j]; rewrite mem_iota => /andP [l _] ->.
  by apply: indep_sub; rewrite neq_ltn (leq_trans c0 l).
apply: (@uses_sub ([:: split (split key 0) 0] ++ ([:: split key 3] ++ ([:: split (split key 0) 1] ++ kids key 4 m)))).
  move=> r; rewrite mem_cat inE => /orP [/eqP ->|].
    by rewrite /= below_split.
  rewrite mem_cat inE => /orP [/eqP ->|].
    by apply/hasP; exists (split key 3); rewrite ?/below ?prefix_refl // inE orbC /kids /= inE eqxx.
  rewrite mem_cat inE => /orP [/eqP ->|].
    by rewrite /= below_split.
  move=> /mapP [i]; rewrite mem_iota => /andP [l1 l2] ->.
  apply/hasP; exists (split key i); last by rewrite /below prefix_refl.
  rewrite mem_cat; apply/orP; right; apply/mapP; exists i => //; rewrite mem_iota (ltnW l1) /=.
  by apply: (leq_trans l2); rewrite addnS -addSn leq_add2l.
apply: uses_bind => [||x0].
- by rewrite allrel1l /= ki // indep_sub //= indep_split.
- exact: uses_draw.
apply: uses_bind => [||A0].
- by rewrite allrel1l /= kid_indep // indepC indep_sub.
- exact: rs_key.
apply: uses_bind => [||x1].
- by rewrite allrel1l ki.
- exact: uses_draw.
rewrite -[kids _ _ _]cats0; apply: uses_bind => [||[c os]]; first by rewrite allrel0r.
  rewrite -e; apply: uses_scan => [|[[w x] x'] i]; first by rewrite e kids_indep.
  apply: (@uses_root ([:: split (p_key i) 0] ++ [:: split (p_key i) 1])); first by rewrite /= !below_split.
  apply: uses_bind => [||A]; first by rewrite allrel1l /= indep_split.
    exact: rs_key.
  by apply: uses_ret_bind; exact: uses_draw.
exact: uses_ret.
Qed.

Lemma uses_atps key x0 xs b0 bs s0 ss qs (backward : bool) :
  size ss = size qs -> size bs = size qs -> size xs = size qs -> (backward -> (1 < size qs)%N) ->
  uses [:: key] (tkern key x0 xs b0 bs s0 ss qs backward).
Proof.
move=> s1 s2 s3 bw.
apply: (@uses_root ([:: split key 1] ++ (([:: split key 0] ++ kids key 3 (size bs)) ++ [:: split key 2]))).
  by rewrite /= !below_split /= all_cat kids_below /= below_split.
apply: uses_bind_if (@normals_size _ _ _ _) _ => [||[e0 es]].
- by rewrite allrel1l /= indep_split //= all_cat kid_indep //= indep_split.
- exact: uses_normals.
rewrite [_.2]/= size_map s1 => se; cbv zeta.
have sf := full_grad_size ga gb (g0 x0) x0 s3.
case: (full_grad ga gb (g0 x0) x0 xs qs) sf => [|g gs] // [sg].
have := @SmoothProofs.sm_aux_size X setting scale xs ss gs es; rewrite s3 sg se s1 => /(_ erefl erefl erefl).
rewrite [sm_aux _ (x0 :: _) _ _ _]/=.
move: (sm_aux scale xs ss gs es) => us su.
have step p0 p1 ps b bs' bT : size bs' = size ps -> (size ps).+1 = size qs ->
    uses (([:: split key 0] ++ kids key 3 (size bs)) ++ [:: split key 2])
      (do o <- tfwd key p0 p1 ps b0 b bs'; do (xs, Bs, _) <- finish key p0 p1 ps bT backward o; Ret (xs, Bs)).
  move=> e1 e3; apply: uses_bind_if (atps_size ld scale val0 valt g0 ga gb rs law0 lpdf0 law lpdf key p0 p1 b0 b e1) _ => [||o so].
  - by rewrite allrel_catl I32 andbT allrel1l /= indep_split.
  - by rewrite s2 -e3 -e1; exact: uses_atps_fwd.
  rewrite -[[:: _]]cats0; apply: uses_bind => [||[[a c] l]]; [by rewrite allrel0r| |exact: uses_ret].
  by apply: uses_finish; rewrite so -ltnS e3.
case: qs s1 s2 s3 bw su step {sg se} => [|q qs] s1 s2 s3 bw su step.
  by move: s1 su => /size0nil -> /size0nil ->; exact: uses_ret.
case: ss s1 => [|s ss] // [s1]; case: us su => [|u us] // [su]; case: xs s3 => [|x xs] // [s3].
case: bs s2 step => [|b bs] // [s2] step.
have sp : size (zip (zip ss us) qs) = size qs by rewrite !size_zip s1 su !minnn.
by apply: step; rewrite ?sp ?s2.
Qed.
End Ok.

(** Two time steps, backward sampling: the last two draws use the same key. *)
Hypothesis rs_live : forall key w i j b, live (rs key w i j b).
Hypothesis mv_live : forall key w k, live (mv key w k).

Lemma bsamp_twice key p0 p1 ps bT (xs : seq pop) xm1 lws : size xs = 2%N ->
  exists ks c, runs (bsamp key p0 p1 ps bT xs xm1 lws) ks c /\ ~~ antichain ks.
Proof.
move=> sz; rewrite /sm_backward_sampling sz; cbv zeta; apply: (@twice_bind _ _ _ _ (fun=> True)) => [||[B al] _]; [exact: mv_live|exact: always_true|].
pose k0 := split key 0; eexists [:: k0; k0], _; split.
  by exists ord0, [:: k0]; split=> //; exists ord0, [::]; split=> //; split.
by rewrite /antichain /= /indep prefix_refl.
Qed.

Lemma finish_twice key p0 p1 ps bT (o : fwd) : size (f_outs o) = 0%N ->
  exists ks c, runs (finish key p0 p1 ps bT true o) ks c /\ ~~ antichain ks.
Proof.
move=> sz; rewrite /sm_finish.
have [ks [[a b] [r na]]] := @bsamp_twice (split key 2) p0 p1 ps bT (sm_xs o) (sm_xs_m_1 o) (sm_log_ws o) (eq_trans (congr1 S (congr1 S (size_map _ _))) (congr1 S (congr1 S sz))).
exists ks, (a, b, sm_log_ws o); split=> //; apply/runs_bind; exists ks, [::], (a, b).
by rewrite cats0.
Qed.

Lemma not_uses_twice A (m : prog A) rts : (exists ks c, runs m ks c /\ ~~ antichain ks) -> ~ uses rts m.
Proof. by move=> [ks [c [r na]]] /(_ ks c r) /andP []; rewrite (negbTE na). Qed.

Lemma live_normals (Y : finZmodType) key (nu0 : Y -> R) nus : live (normals key nu0 nus).
Proof. by split=> //; exists (0, nseq_tuple _ 0). Qed.

Lemma als_twice key x0 x1 b0 b1 s0 s1 q :
  ~ uses [:: key] (akern key x0 [:: x1] b0 [:: b1] s0 [:: s1] [:: q] true).
Proof.
apply: not_uses_twice; apply: twice_bind (@normals_size _ _ _ _) _ => [|[e0 [|e1 [|? ?]]] // _]; first exact: live_normals.
cbv zeta; apply: twice_bind (@normals_size _ _ _ _) _ => [|[d0 [|d1 [|? ?]]] // _].
  by split=> //; exists ([ffun=> 0], nseq_tuple _ [ffun=> 0]).
have step p0 p1 b bT (y0 y1 : pop) :
    exists ks c, runs (do o <- afwd key p0 p1 [::] b0 b [::] y0 y1 [::]; finish key p0 p1 [::] bT true o) ks c /\ ~~ antichain ks.
  apply: twice_bind (@als_outs key p0 p1 [::] b0 b [::] y0 y1 [::] erefl erefl) _ => [|o so]; last exact: finish_twice.
  by apply: live_bind => [|A0 //]; exact: rs_live.
exact: step.
Qed.

Lemma atps_twice key x0 x1 b0 b1 s0 s1 q :
  ~ uses [:: key] (tkern key x0 [:: x1] b0 [:: b1] s0 [:: s1] [:: q] true).
Proof.
apply: not_uses_twice; apply: twice_bind (@normals_size _ _ _ _) _ => [|[e0 [|e1 [|? ?]]] // _]; first exact: live_normals.
cbv zeta.
have step p0 p1 b bT :
    exists ks c, runs (do o <- tfwd key p0 p1 [::] b0 b [::];
      do (xs, Bs, _) <- finish key p0 p1 [::] bT true o; Ret (xs, Bs)) ks c /\ ~~ antichain ks.
  apply: twice_bind (@atps_size X n' Q setting ld scale val0 valt g0 ga gb rs law0 lpdf0 law lpdf key p0 p1 [::] b0 b [::] erefl) _ => [|o so].
    apply: live_bind => [|y0]; first by split=> //; exists [ffun=> 0].
    apply: live_bind => [|A0]; first exact: rs_live.
    by apply: live_bind => [|y1 //]; split=> //; exists [ffun=> 0].
  have [ks [[[a c] l] [r na]]] := finish_twice key p0 p1 [::] bT so.
  by exists ks, (a, c); split=> //; apply/runs_bind; exists ks, [::], (a, c, l); rewrite cats0.
exact: step.
Qed.

End Keys.

Lemma live_multinomial n' key (w : 'I_n'.+1 -> R) i j b : live (multinomial key w i j b).
Proof. by split=> //; exists [ffun=> ord0]. Qed.
Lemma live_killing n' key (w : 'I_n'.+1 -> R) i j b : live (killing key w i j b).
Proof.
apply: live_bind => [|idx].
  by split=> [|k]; [exists [ffun=> true]|split=> //; exists [ffun=> ord0]].
by case: b; [split=> //; exists ord0|].
Qed.
Lemma live_force n' key (w : 'I_n'.+1 -> R) k : live (force_move key w k).
Proof. by split=> [|i]; [exists ord0|split=> //; exists true]. Qed.
Lemma live_barker n' key (w : 'I_n'.+1 -> R) k : live (barker_move key w k).
Proof. by split=> //; exists ord0. Qed.
