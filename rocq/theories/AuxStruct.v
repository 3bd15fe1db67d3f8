(** * AuxStruct: every execution of rw_csmc.py, l_csmc_f.py, al_csmc_f.py: reference
    insertion, shapes, guard, key discipline; and final forms for PropsAux. *)
From Coq Require Import Reals.
From mathcomp Require Import all_ssreflect all_algebra.
From Verif Require Import RInst Prog ProgTheory Resampling Spec ResamplingProofs MoveProofs.
From Verif Require Import Csmc CsmcInvariance CsmcProofs KeyProofs AuxCsmc SweepTheory AuxProofs.

Set Implicit Arguments.
Unset Strict Implicit.
Unset Printing Implicit Defensive.
Import GRing.Theory Num.Theory Order.TTheory.
Local Open Scope ring_scope.

Lemma guard_finite (X I L : Type) (finite : X -> bool) (xstar : seq X) (bstar : seq I)
    (m : prog (seq X * seq I * L)) :
  all finite xstar ->
  always (fun r => all finite r.1.1) (do r <- m; Ret (rw_guard finite xstar bstar r)).
Proof.
move=> fx; apply/always_bind; apply: always_true => -[[xs Bs] l] /=.
by case: ifPn => // /negPn.
Qed.

Lemma guard_cases (X I L : Type) (finite : X -> bool) (xstar : seq X) (bstar : seq I) (r : seq X * seq I * L) :
  (all finite r.1.1 -> rw_guard finite xstar bstar r = r)
  /\ (~~ all finite r.1.1 -> rw_guard finite xstar bstar r = (xstar, bstar, r.2)).
Proof. by case: r => -[xs Bs] l /=; case: (all finite xs). Qed.

Section Aux.
Variables (X : finZmodType) (n' : nat) (Q : Type).
Local Notation n := n'.+1.
Local Notation pop := (pop X n').
Local Notation anc := (anc n').
Local Notation lwts := (lwts n').
Variables (setting : Type) (noise ld : setting -> X -> R) (scale : setting -> X -> X).
Variable logH : setting -> pop -> X -> X -> R.
Variables (rs : resampler n) (mv : mover n).
Variables (G0 : X -> R) (Gt : X -> X -> Q -> R) (g0 : X -> X) (gt : X -> X -> Q -> X).

Lemma All2_sinputs PP (Rel : sinp X n' PP -> lwts * anc * pop -> Prop) pp b0 bs key c ps us xs x0 os :
  size us = size pp -> size bs = size pp -> size xs = size pp -> size ps = size pp ->
  All2 Rel (sinputs pp (mk_pops us ps bs xs) b0 bs key c) os ->
  size os = size xs /\ forall t, (t < size xs)%N -> forall dflt,
    exists i, [/\ Rel i (nth dflt os t), s_b i = nth b0 bs t, s_x i (nth b0 bs t) = nth x0 xs t
                & s_bm1 i = nth b0 (b0 :: bs) t].
Proof.
elim: pp b0 bs c ps us xs os => [|p pp IH] b0 [|b bs] c [|po ps] [|u us] [|x xs] [|o os] //=.
move=> [s1] [s2] [s3] [s4] [ro ros].
have [-> H] := IH b bs c.+1 ps us xs os s1 s2 s3 s4 ros; split=> // -[|t] lt dflt.
  exists (SInp p (mk_pop u po b x) b0 b (split key c)); split=> //=.
  by rewrite /mk_pop upd_same.
have [i [r e1 e2 e3]] := H t lt dflt; exists i; split=> //=.
- by rewrite e1; apply: set_nth_default; rewrite s2 -s3.
- by rewrite -e2; congr (s_x i _); apply: set_nth_default; rewrite s2 -s3.
- rewrite e3; apply: set_nth_default; rewrite /= s2 -s3.
  exact: ltnW.
Qed.

Lemma aux_keeps PP W0 (Wt : pop -> pop -> PP -> lwts) post wof key b0 bs x0 xs u0 p0 us ps (pp : seq PP) :
  keeps rs -> size us = size pp -> size bs = size pp -> size xs = size pp -> size ps = size pp ->
  always (keeps_ref x0 xs b0 bs)
    (aux_forward rs W0 Wt post wof key b0 bs (mk_pop u0 p0 b0 x0) (mk_pops us ps bs xs) pp).
Proof.
move=> kp s1 s2 s3 s4; apply/always_bind.
pose Rel (i : sinp X n' PP) (s : lwts * anc * pop) := s.2 = s_x i /\ s.1.2 (s_b i) = s_bm1 i.
have H : forall c i, always (fun r => Rel i r.2) (aux_body rs Wt post wof c i).
  by move=> [w x] i; apply/always_bind; apply: always_imp (kp _ _ _ _) => A Ab.
apply: always_imp (scan_always _ _ H) => -[c os] /= al.
have [so Ho] := All2_sinputs x0 s1 s2 s3 s4 al; split=> //=; first by rewrite /mk_pop upd_same.
move=> t lt dflt; have [i [[e1 e2] eb ex em]] := Ho t lt dflt.
by rewrite e1 ex -eb e2 em.
Qed.

Lemma rw_aux_size (xs es : seq X) : size es = size xs -> size (rw_aux xs es) = size xs.
Proof. by elim: xs es => [|x xs IH] [|e es] //= [sz]; rewrite IH. Qed.

Lemma rw_keeps key x0 xs b0 bs s0 ss qs : keeps rs ->
  size ss = size qs -> size bs = size qs -> size xs = size qs ->
  always (keeps_ref x0 xs b0 bs) (rw_forward noise rs G0 Gt key x0 xs b0 bs s0 ss qs).
Proof.
move=> kp s1 s2 s3; apply/always_bind; apply: always_imp (@normals_size _ _ _ _) => -[e0 es].
rewrite size_map s1 => se; simpl in se; apply/always_bind; apply: always_imp (@normals_size _ _ _ _) => -[p0 ps].
rewrite size_map s1 => sp; simpl in sp; apply: aux_keeps => //.
by rewrite rw_aux_size ?se.
Qed.

Lemma l_keeps key x0 xs b0 bs s0 ss qs : keeps rs ->
  size ss = size qs -> size bs = size qs -> size xs = size qs ->
  always (keeps_ref x0 xs b0 bs) (l_forward noise scale logH rs G0 Gt g0 gt key x0 xs b0 bs s0 ss qs).
Proof.
move=> kp s1 s2 s3; apply/always_bind; apply: always_imp (@normals_size _ _ _ _) => -[e0 es].
rewrite size_map s1 => se; simpl in se; apply/always_bind; apply: always_imp (@normals_size _ _ _ _) => -[p0 ps].
have sz : size (zip ss qs) = size qs by rewrite size_zip s1 minnn.
rewrite size_map s1 => sp; simpl in sp; apply: aux_keeps; rewrite ?sz ?grad_aux_size ?se //.
Qed.

Lemma al_keeps key x0 xs b0 bs s0 ss qs : keeps rs ->
  size ss = size qs -> size bs = size qs -> size xs = size qs ->
  always (fun r => keeps_ref x0 xs b0 bs r.1 /\ size r.2 = size qs)
    (al_forward noise ld scale rs G0 Gt g0 gt key x0 xs b0 bs s0 ss qs).
Proof.
move=> kp s1 s2 s3; apply/always_bind; apply: always_imp (@normals_size _ _ _ _) => -[e0 es].
rewrite size_map s1 => se; simpl in se; apply/always_bind; apply: always_imp (@normals_size _ _ _ _) => -[p0 ps].
have su : size (grad_aux scale gt x0 xs ss qs es) = size qs by rewrite grad_aux_size ?se.
have sz : size (zip (zip ss (grad_aux scale gt x0 xs ss qs es)) qs) = size qs.
  by rewrite !size_zip s1 su !minnn.
rewrite size_map s1 => sp; simpl in sp; apply/always_bind.
apply: (@always_imp _ (keeps_ref x0 xs b0 bs)) => [o ko|]; first by split=> //=; rewrite sz.
by apply: aux_keeps; rewrite ?sz ?su.
Qed.

Definition shaped (x0 : X) (xs : seq X) (b0 : 'I_n) (bs : seq 'I_n) (r : seq X * seq 'I_n) : Prop :=
  [/\ size r.1 = (size xs).+1, size r.2 = (size bs).+1 & unchanged x0 xs b0 bs r].

Lemma aux_backward_shaped QQ (Gam : X -> X -> QQ -> R) key bT qq backward x0 xs b0 bs o :
  size qq = size xs -> size bs = size xs -> keeps_ref x0 xs b0 bs o ->
  always (fun r => shaped x0 xs b0 bs r.1) (aux_backward mv Gam key bT qq backward o).
Proof.
move=> s1 s2 kr; have so : size o.2 = size xs by case: kr.
suff H r : traced o r -> shaped x0 xs b0 bs r.
  apply/always_bind; case: backward.
    by apply: always_imp (sampling_traced mv Gam (split key 2) bT true _) => [[r1 r2] /H|]; rewrite ?s1.
  by apply: always_imp (scanning_traced mv (split key 2) bT o) => -[r1 r2] [/H].
by move=> tr; have [e1 e2 _] := tr; split; rewrite ?e1 ?e2 ?so ?s2 //; apply: keeps_traced tr.
Qed.

Lemma rw_shaped finite key x0 xs b0 bs s0 ss qs backward : keeps rs ->
  size ss = size qs -> size bs = size qs -> size xs = size qs ->
  always (fun r => shaped x0 xs b0 bs r.1) (rw_kernel noise rs mv G0 Gt finite key x0 xs b0 bs s0 ss qs backward).
Proof.
move=> kp s1 s2 s3; apply/always_bind.
apply: always_imp (rw_keeps key x0 b0 s0 kp s1 s2 s3) => o ko; apply/always_bind.
apply: always_imp (aux_backward_shaped Gt key (last b0 bs) backward _ _ ko) => [[[rx rb] rl] /= sh||].
- by case: (all finite rx) => //=; split.
- by rewrite s3.
- by rewrite s2 s3.
Qed.

Lemma l_shaped key x0 xs b0 bs s0 ss qs backward : keeps rs ->
  size ss = size qs -> size bs = size qs -> size xs = size qs ->
  always (fun r => shaped x0 xs b0 bs r.1)
    (l_kernel noise scale logH rs mv G0 Gt g0 gt key x0 xs b0 bs s0 ss qs backward).
Proof.
move=> kp s1 s2 s3; apply/always_bind.
apply: always_imp (l_keeps key x0 b0 s0 kp s1 s2 s3) => o ko.
by apply: aux_backward_shaped ko; rewrite ?s2 ?s3.
Qed.

Lemma al_shaped key x0 xs b0 bs s0 ss qs backward : keeps rs ->
  size ss = size qs -> size bs = size qs -> size xs = size qs ->
  always (fun r => shaped x0 xs b0 bs r.1)
    (al_kernel noise ld scale rs mv G0 Gt g0 gt key x0 xs b0 bs s0 ss qs backward).
Proof.
move=> kp s1 s2 s3; apply/always_bind.
apply: always_imp (al_keeps key x0 b0 s0 kp s1 s2 s3) => -[o pp] /= [ko sp].
by apply: aux_backward_shaped ko; rewrite ?s2 ?s3.
Qed.

(** *** Keys *)
Hypothesis rs_key : forall key w i j b, uses [:: key] (rs key w i j b).
Hypothesis mv_key : forall key w k, uses [:: key] (mv key w k).

Lemma uses_normals (Y : finType) key (nu0 : Y -> R) nus : uses [:: key] (normals key nu0 nus).
Proof. by apply: uses_ret_bind; exact: uses_draw. Qed.

Lemma sinputs_keys PP (pp : seq PP) xs b bs key c :
  exists m, [seq s_key i | i <- @sinputs X n' PP pp xs b bs key c] = kids key c m.
Proof.
elim: pp xs b bs c => [|p pp IH] xs b bs c; first by exists 0%N.
case: xs bs => [|x xs] [|b' bs]; try by exists 0%N.
by have [m /= ->] := IH xs b' bs c.+1; exists m.+1.
Qed.

Lemma uses_aux_forward PP W0 (Wt : pop -> pop -> PP -> lwts) post wof key b0 bs x0 xs (pp : seq PP) m :
  [seq s_key i | i <- sinputs pp xs b0 bs key 3] = kids key 3 m ->
  uses (kids key 3 m) (aux_forward rs W0 Wt post wof key b0 bs x0 xs pp).
Proof.
move=> e; rewrite -[kids _ _ _]cats0; apply: uses_bind => [||[c o]]; first by rewrite allrel0r.
  rewrite -e; apply: uses_scan => [|[w x] i]; first by rewrite e kids_indep.
  by apply: uses_ret_bind; exact: rs_key.
exact: uses_ret.
Qed.

Lemma uses_aux_backward QQ (Gam : X -> X -> QQ -> R) key bT qq backward o :
  uses [:: split key 2] (aux_backward mv Gam key bT qq backward o).
Proof.
rewrite -[[:: split key 2]]cats0; apply: uses_bind => [||[xs' Bs]]; first by rewrite allrel0r.
  by case: backward; [exact: uses_sampling|exact: uses_scanning].
exact: uses_ret.
Qed.

Lemma kid_indep key i c m : (i < c)%N -> all (indep (split key i)) (kids key c m).
Proof.
move=> ic; apply/allP => k /mapP [j]; rewrite mem_iota => /andP [le _] ->.
by apply: indep_split; rewrite neq_ltn (leq_trans ic le).
Qed.

(** A kernel that draws from keys 1 and 0, runs a forward pass with keys 3, 4, ...
    and finishes with key 2. *)
Lemma uses_shape (Y1 Y0 : finType) A B key nu0 nus mu0 mus
    (fwd : Y1 -> seq Y1 -> Y0 -> seq Y0 -> prog A) (back : A -> prog B) :
  (forall e0 es p0 ps, exists m, uses (kids key 3 m) (fwd e0 es p0 ps)) ->
  (forall a, uses [:: split key 2] (back a)) ->
  uses [:: key] (do o <- (do (e0, es) <- normals (split key 1) nu0 nus;
                          do (p0, ps) <- normals (split key 0) mu0 mus;
                          fwd e0 es p0 ps); back o).
Proof.
move=> Hf Hb ks r rr.
move: (rr) => /runs_bind [k1 [k2 [a [-> /runs_bind [k3 [k4 [[e0 es] [-> r1]]]]]]]].
move=> /runs_bind [k5 [k6 [[p0 ps] [-> r2 r3]]]] r4.
have [m Hm] := Hf e0 es p0 ps.
pose prog1 := do x <- normals (split key 1) nu0 nus; do y <- normals (split key 0) mu0 mus;
   do z <- fwd e0 es p0 ps; back z.
have U : uses [:: key] prog1.
  apply: (@uses_root ([:: split key 1] ++ ([:: split key 0] ++ (kids key 3 m ++ [:: split key 2])))).
    by rewrite /= !below_split /= all_cat kids_below /= below_split.
  have I2 : allrel indep (kids key 3 m) [:: split key 2].
    by rewrite allrel1r; under eq_all do rewrite indepC; exact: kid_indep.
  apply: uses_bind => [||_].
  - by rewrite /allrel /= indep_split //= all_cat kid_indep //= indep_split.
  - exact: uses_normals.
  apply: uses_bind => [||_].
  - by rewrite /allrel /= all_cat kid_indep //= indep_split.
  - exact: uses_normals.
  by apply: uses_bind.
apply: (U _ r); rewrite -!catA.
apply/runs_bind; exists k3, (k5 ++ k6 ++ k2), (e0, es); split=> //.
apply/runs_bind; exists k5, (k6 ++ k2), (p0, ps); split=> //.
by apply/runs_bind; exists k6, k2, a.
Qed.

Lemma uses_rw finite key x0 xs b0 bs s0 ss qs backward :
  uses [:: key] (rw_kernel noise rs mv G0 Gt finite key x0 xs b0 bs s0 ss qs backward).
Proof.
apply: uses_shape => [e0 es p0 ps|o].
  have [m e] := sinputs_keys qs (mk_pops (rw_aux xs es) ps bs xs) b0 bs key 3.
  by exists m; apply: uses_aux_forward.
by apply: uses_ret_bind; exact: uses_aux_backward.
Qed.

Lemma uses_l key x0 xs b0 bs s0 ss qs backward :
  uses [:: key] (l_kernel noise scale logH rs mv G0 Gt g0 gt key x0 xs b0 bs s0 ss qs backward).
Proof.
apply: uses_shape => [e0 es p0 ps|o]; last exact: uses_aux_backward.
have [m e] := sinputs_keys (zip ss qs) (mk_pops (grad_aux scale gt x0 xs ss qs es) ps bs xs) b0 bs key 3.
by exists m; apply: uses_aux_forward.
Qed.

Lemma uses_al key x0 xs b0 bs s0 ss qs backward :
  uses [:: key] (al_kernel noise ld scale rs mv G0 Gt g0 gt key x0 xs b0 bs s0 ss qs backward).
Proof.
apply: uses_shape => [e0 es p0 ps|[o pp]]; last exact: uses_aux_backward.
have [m e] := sinputs_keys (zip (zip ss (grad_aux scale gt x0 xs ss qs es)) qs) (mk_pops (grad_aux scale gt x0 xs ss qs es) ps bs xs) b0 bs key 3.
by exists m; apply: uses_ret_bind; apply: uses_aux_forward.
Qed.

End Aux.
