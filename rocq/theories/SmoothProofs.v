(** * SmoothProofs: invariance of the kernel of al_csmc_s.py, given the auxiliary
    variables, then marginally. *)
From Coq Require Import Reals FunctionalExtensionality Lra.
From mathcomp Require Import all_ssreflect all_algebra.
From Verif Require Import RInst Prog ProgTheory Resampling Spec ResamplingProofs.
From Verif Require Import KillingProofs MoveProofs ResamplingSpecs Csmc SmcTheory BackwardProofs.
From Verif Require Import CsmcInvariance AuxCsmc SweepTheory AuxProofs TpProofs Smooth PathTheory SmoothBack.

Set Implicit Arguments.
Unset Strict Implicit.
Unset Printing Implicit Defensive.
Import GRing.Theory Num.Theory Order.TTheory.
Local Open Scope ring_scope.

Section Given.
Variables (X : finZmodType) (n' : nat) (Q setting : Type).
Local Notation n := n'.+1.
Local Notation pop := (pop X n').
Local Notation anc := (anc n').
Local Notation lwts := (lwts n').
Local Notation Z := (X * 'I_n)%type.
Local Notation QQ := (setting * X * Q)%type.
Local Notation hist := (hist X n').
Local Notation pstep := (pstep X n').
Variables (noise ld : setting -> X -> R) (scale : setting -> X -> X).
Variables (val0 : X -> R) (valt : X -> X -> Q -> R).
Variables (g0 : X -> X) (ga gb : X -> X -> Q -> X).
Variables (rs : resampler n) (mv : mover n).

Hypothesis noiseP : forall s, prob_vec (noise s).
Hypothesis rs_good : good_resampler rs.
Hypothesis ldE : forall s, exists c, c != 0 /\ forall z, exp (ld s z) = c * noise s z.

Local Notation Gamma_0 := (sm_Gamma_0 ld scale val0 g0).
Local Notation Gamma_1 := (sm_Gamma_1 ld scale valt g0 ga gb).
Local Notation Gamma_t := (sm_Gamma_t ld scale valt ga gb).
Local Notation body := (als_body ld scale valt ga gb rs).
Local Notation bsamp := (sm_backward_sampling ld scale valt g0 ga gb mv).

Variable p0 : setting * X.

(** ** The steps *)
Definition aprop (s : setting) (u : X) (b : 'I_n) (x : X) : prog pop :=
  Draw [::] _ (iid (noise s)) (fun e => Ret (mk_pop u e b x)).

Definition ainit : ginit X n' :=
  GInit (aprop p0.1 p0.2) (fun x0 => minus_max (als_G_0 ld scale val0 g0 p0 x0)) (Gamma_0 p0).

Local Notation pcol := (@pcol X n').
Local Notation sm_log := (sm_log ld scale valt ga gb).
Local Notation sm_target := (sm_target ld scale val0 valt g0 ga gb p0).

Definition astep1 (p1 : QQ) (key : key) : pstep :=
  PStep (fun w i j => rs key w i j true) (fun _ => aprop p1.1.1 p1.1.2)
        (fun ps xt => als_G_1 ld scale valt g0 ga gb p0 p1 (pcol ps 0) xt)
        (fun p x => Gamma_1 p0 p1 (nth 0 p 0) x).

Definition astep (pm p : QQ) (key : key) : pstep :=
  PStep (fun w i j => rs key w i j true) (fun _ => aprop p.1.1 p.1.2)
        (fun ps xt => minus_max (als_G_t ld scale valt ga gb pm p (pcol ps 1) (pcol ps 0) xt))
        (fun p' x => Gamma_t pm p (nth 0 p' 1) (nth 0 p' 0) x).

Lemma aprop_proper s u b x : proper (aprop s u b x).
Proof.
by have [i0 i1] := iid_prob n' (noiseP s); split.
Qed.

Lemma aprop_keep s u b x : almost (fun xt : pop => xt b = x) (aprop s u b x).
Proof. by move=> e _ /=; rewrite /mk_pop upd_same. Qed.

Lemma ainit_ok : init_ok ainit.
Proof.
split=> [|b x|b x]; [|exact: aprop_proper|exact: aprop_keep].
have [S HS] := @absorb_shift X n' (fun xt : pop => exp (ld p0.1 0) / noise p0.1 0 * \prod_i noise p0.1 (xt i - p0.2))
   (als_G_0 ld scale val0 g0 p0) (fun x0 => minus_max (als_G_0 ld scale val0 g0 p0 x0)) (fun _ => minus_maxE _).
by exists S => b F; rewrite -HS -(sum_given noiseP ldE).
Qed.

Lemma astep1_ok p1 key : prs_ok (astep1 p1 key) /\ pprop_ok (astep1 p1 key).
Proof.
split; first by move=> w pw; exact: rs_good.
move=> ps; split=> [|b x|b x]; [|exact: aprop_proper|exact: aprop_keep].
eexists => b F /=; rewrite (sum_given noiseP ldE).
by apply: eq_bigr => xt _; rewrite /als_G_1 /pcol ffunE.
Qed.

Lemma astep_ok pm p key : prs_ok (astep pm p key) /\ pprop_ok (astep pm p key).
Proof.
split; first by move=> w pw; exact: rs_good.
move=> ps; split=> [|b x|b x]; [|exact: aprop_proper|exact: aprop_keep].
pose W := als_G_t ld scale valt ga gb pm p (pcol ps 1) (pcol ps 0).
have [S HS] := @absorb_shift X n' (fun xt : pop => exp (ld p.1.1 0) / noise p.1.1 0 * \prod_i noise p.1.1 (xt i - p.1.2))
   W (fun xt => minus_max (W xt)) (fun _ => minus_maxE _).
exists S => b F; rewrite -HS /= (sum_given noiseP ldE).
by apply: eq_bigr => xt _; rewrite /W /als_G_t /pcol !ffunE.
Qed.

Fixpoint asteps (pm : QQ) (ps : seq QQ) (key : key) (c : nat) : seq pstep :=
  if ps is p :: ps' then astep pm p (split key c) :: asteps p ps' key c.+1 else [::].

Definition all_steps (p1 : QQ) (ps : seq QQ) (key : key) : seq pstep :=
  astep1 p1 (split key 3) :: asteps p1 ps key 4.

Lemma psteps_ok_catrev (l st : seq pstep) :
  psteps_ok (catrev l st) <-> psteps_ok (rev l) /\ psteps_ok st.
Proof.
rewrite /rev; elim: l st => [|s l IH] st /=; first tauto.
by rewrite IH (IH [:: s]) /=; split=> [[? []]|[[? []]]].
Qed.

Lemma all_steps_ok p1 ps key : psteps_ok (rev (all_steps p1 ps key)).
Proof.
rewrite /rev /all_steps /= psteps_ok_catrev; split; last first.
  by have [] := astep1_ok p1 (split key 3).
elim: ps p1 (4%N) => [|p ps IH] pm c //=.
rewrite /rev /= psteps_ok_catrev; split; first exact: IH.
by have [] := astep_ok pm p (split key c).
Qed.

Lemma all_steps_size p1 ps key : size (all_steps p1 ps key) = (size ps).+1.
Proof. by rewrite /=; congr _.+1; elim: ps p1 (4%N) => [|p ps IH] pm c //=; rewrite IH. Qed.

(** ** The target *)
Lemma pfsum_tuple pm ps key c (p : seq Z) F :
  pfsum (asteps pm ps key c) p F
  = \sum_(xs : (size ps).-tuple X) \sum_(bs : (size ps).-tuple 'I_n)
      exp (sm_log pm (nth 0 (unzip1 p) 1) (nth 0 (unzip1 p) 0) xs ps) * F (zip xs bs).
Proof.
elim: ps pm c p F => [|q ps IH] pm c p F /=.
  rewrite (sum_tuple0 (fun xs => \sum_(bs : 0.-tuple 'I_n) exp (sm_log pm (nth 0 (unzip1 p) 1) (nth 0 (unzip1 p) 0) xs [::]) * F (zip xs bs))) /=.
  by rewrite (sum_tuple0 (fun bs => exp 0 * F (zip [::] bs))) /= exp_0 mul1r.
set a := nth 0 _ 1; set b := nth 0 _ 0.
rewrite (@sum_tuple_cons _ _ (fun xs => \sum_(bs : (size ps).+1.-tuple 'I_n) exp (sm_log pm a b xs (q :: ps)) * F (zip xs bs))).
rewrite exchange_big; apply: eq_bigr => x _ /=.
under [RHS]eq_bigr do rewrite (@sum_tuple_cons _ _ (fun bs => exp (Gamma_t pm q a b x + sm_log q b x _ ps) * F (zip (x :: _) bs))).
rewrite exchange_big; apply: eq_bigr => i _ /=.
rewrite IH // mulr_sumr; apply: eq_bigr => xs _; rewrite mulr_sumr; apply: eq_bigr => bs _.
by rewrite expRD mulrA.
Qed.

Lemma ppsum_traj p1 ps key F :
  traj_sum (size ps).+1 (fun x0 xs b0 bs => sm_target p1 ps x0 xs * F (rev (zip (x0 :: xs) (b0 :: bs))))
  = ppsum ainit (rev (all_steps p1 ps key)) F.
Proof.
rewrite ppsum_rev exchange_big /traj_sum; apply: eq_bigr => x0 _; apply: eq_bigr => b0 _ /=.
rewrite (@sum_tuple_cons _ _ (fun xs => \sum_(bs : (size ps).+1.-tuple 'I_n) sm_target p1 ps x0 xs * F (rev (zip (x0 :: xs) (b0 :: bs))))).
rewrite [in RHS]exchange_big mulr_sumr; apply: eq_bigr => x1 _ /=.
under eq_bigr do rewrite (@sum_tuple_cons _ _ (fun bs => exp (Gamma_0 p0 x0 + Gamma_1 p0 p1 x0 x1 + sm_log p1 x0 x1 _ ps) * F (rev (zip (x0 :: x1 :: _) (b0 :: bs))))).
rewrite exchange_big mulr_sumr; apply: eq_bigr => b1 _ /=.
rewrite pfsum_tuple /= !mulr_sumr; apply: eq_bigr => xs _; rewrite !mulr_sumr; apply: eq_bigr => bs _.
by rewrite !expRD !mulrA.
Qed.

(** ** The backward pass *)
Section Back.
Variables (p1 : QQ) (ps : seq QQ).
Local Notation gams := (gams ld scale valt g0 ga gb p0 p1 ps).

Lemma gams_catrev pm ps1 ps2 key c st : p1 :: ps = ps1 ++ pm :: ps2 -> size st = (size ps1).+1 -> gams st ->
  gams (catrev (asteps pm ps2 key c) st).
Proof.
elim: ps2 pm ps1 c st => [|p ps2 IH] pm ps1 c st //= e sz gs.
apply: (IH p (rcons ps1 pm)).
- by rewrite -cats1 -catA.
- by rewrite size_rcons /= sz.
- split=> //=; rewrite sz /=.
  have -> : nth p1 (p1 :: ps) (size ps1) = pm by rewrite e nth_cat ltnn subnn.
  have -> : nth p1 ps (size ps1) = p.
    by have -> : nth p1 ps (size ps1) = nth p1 (p1 :: ps) (size ps1).+1 by []; rewrite e nth_cat ltnNge leqnSn /= subSnn.
  by [].
Qed.

Lemma gams_steps key : gams (rev (all_steps p1 ps key)).
Proof. by rewrite /rev /=; apply: (@gams_catrev _ [::]). Qed.

End Back.

(** ** The forward pass, given the auxiliary variables *)
Section Fwd.
Variables (p1 : QQ) (ps : seq QQ).
Local Notation out4 := (lwts * anc * pop * pop)%type.
Local Notation hout := (@hout X n').
Local Notation hcar := (@hcar X n').
Local Notation fin := (fin ld scale valt g0 ga gb mv p0 p1 ps).
Local Notation z0 := (@z0 X n').

Record sdat := SDat { d_pm : QQ; d_p : QQ; d_z : Z; d_bm1 : 'I_n; d_key : key }.

Fixpoint sdats (pm : QQ) (ps : seq QQ) (xs : seq X) (b : 'I_n) (bs : seq 'I_n) (key : key) (c : nat) : seq sdat :=
  match ps, xs, bs with
  | p :: ps', x :: xs', b' :: bs' => SDat pm p (x, b') b (split key c) :: sdats p ps' xs' b' bs' key c.+1
  | _, _, _ => [::]
  end.

Definition sdat_inp (i : sdat) (e : pop) : sinp X n' (QQ * QQ) :=
  SInp (d_pm i, d_p i) (mk_pop (d_p i).1.2 e (d_z i).2 (d_z i).1) (d_bm1 i) (d_z i).2 (d_key i).

Lemma inputs_sdats pm qs xs b bs key c es : size xs = size qs -> size bs = size qs -> size es = size qs ->
  als_inputs pm qs (mk_pops [seq p.1.2 | p <- qs] es bs xs) b bs key c
  = [seq sdat_inp r.1 r.2 | r <- zip (sdats pm qs xs b bs key c) es].
Proof.
elim: qs xs bs es pm b c => [|p qs IH] [|x xs] [|b' bs] [|e es] pm b c //= [s1] [s2] [s3].
by rewrite IH.
Qed.

Definition sbody c (i : sdat) := Draw [::] _ (iid (noise (d_p i).1.1)) (fun e => body c (sdat_inp i e)).
Definition dstep (i : sdat) := astep (d_pm i) (d_p i) (d_key i).

Lemma sbodyE h i f : (1 <= size h.2)%N ->
  E (sbody (hcar h) i) f
  = E (p_rs (dstep i) (normalize (hlast h).1) (d_bm1 i) (d_z i).2) (fun A =>
      E (p_prop (dstep i) (hpaths h A) (d_z i).2 (d_z i).1) (fun xt =>
        let h' := hcons h (dstep i) A xt in f (hcar h', hout h'))).
Proof.
case: h => [h0 [|[[lw A'] x] outs]] // _.
rewrite /sbody [LHS]/=.
under [LHS]eq_bigr do rewrite E_bind.
rewrite E_sumE; apply: eq_E => A /=; apply: eq_bigr => e _; congr (_ * _).
set xt := mk_pop _ _ _ _.
have e0 : pcol (hpaths (h0, (lw, A', x) :: outs) A) 0 = take_ax x A.
  by apply/ffunP => j; rewrite !ffunE.
have e1 : pcol (hpaths (h0, (lw, A', x) :: outs) A) 1 = take_ax (take_ax (hlast (h0, outs)).2 A') A.
  by apply/ffunP => j; rewrite !ffunE nth1_hpath.
by rewrite /hcons /hcar /hout /hprev /= e0 e1.
Qed.

Definition als_sum key (x0 x1 : X) (xs : seq X) (b0 b1 : 'I_n) (bs : seq 'I_n) backward (f : seq X * seq 'I_n -> R) : R :=
  \sum_e0 iid (noise p0.1) e0 * (\sum_e1 iid (noise p1.1.1) e1 * lsum [seq iid (noise p.1.1) | p <- ps] (fun es =>
    E (drop_weights (do o <- als_forward ld scale val0 valt g0 ga gb rs key p0 p1 ps b0 b1 bs
         (mk_pop p0.2 e0 b0 x0) (mk_pop p1.1.2 e1 b1 x1) (mk_pops [seq p.1.2 | p <- ps] es bs xs);
       sm_finish ld scale valt g0 ga gb mv key p0 p1 ps (last b1 bs) backward o)) f)).

Lemma sdats_steps pm qs xs b bs key c : size xs = size qs -> size bs = size qs ->
  [seq dstep i | i <- sdats pm qs xs b bs key c] = asteps pm qs key c.
Proof. by elim: qs xs bs pm b c => [|p qs IH] [|x xs] [|b' bs] pm b c //= [s1] [s2]; rewrite IH. Qed.

Lemma sdats_refs pm qs xs b bs key c : size xs = size qs -> size bs = size qs ->
  [seq d_z i | i <- sdats pm qs xs b bs key c] = zip xs bs.
Proof. by elim: qs xs bs pm b c => [|p qs IH] [|x xs] [|b' bs] pm b c //= [s1] [s2]; rewrite IH. Qed.

Lemma sdats_laws pm qs xs b bs key c : size xs = size qs -> size bs = size qs ->
  [seq @iid X n' (noise (d_p i).1.1) | i <- sdats pm qs xs b bs key c] = [seq iid (noise p.1.1) | p <- qs].
Proof. by elim: qs xs bs pm b c => [|p qs IH] [|x xs] [|b' bs] pm b c //= [s1] [s2]; rewrite IH. Qed.

Lemma sdats_chained pm qs xs b bs key c : chained d_z d_bm1 b (sdats pm qs xs b bs key c).
Proof. by elim: qs xs bs pm b c => [|p qs IH] [|x xs] [|b' bs] pm b c. Qed.

Lemma als_sum_fwd key x0 x1 xs b0 b1 bs backward f :
  size xs = size ps -> size bs = size ps ->
  als_sum key x0 x1 xs b0 b1 bs backward f
  = E (pfwd ainit z0 (rev (all_steps p1 ps key)) (rev (zip (x0 :: x1 :: xs) (b0 :: b1 :: bs))))
      (fun h => E (drop_weights (fin key (last b1 bs) backward h.1 (rev (houts hout h.1 h.2)))) f).
Proof.
move=> sx sb.
have := @E_scan_pfwd X n' ainit z0 _ _ _ sbody dstep d_z d_bm1 hcar hout 1 sbodyE
  [:: astep1 p1 (split key 3)] [:: (x1, b1); (x0, b0)] (sdats p1 ps xs b1 bs key 4)
  (fun h0 os => E (drop_weights (fin key (last b1 bs) backward h0 os)) f) isT (sdats_chained _ _ _ _ _ _ _).
rewrite sdats_steps // sdats_refs // => <-.
rewrite /als_sum [RHS]/=; apply: eq_bigr => e0 _; congr (_ * _).
set y0 := mk_pop _ e0 _ _; set lw0 := minus_max _.
rewrite E_bind.
pose G A e1 es := E (scan body (normalize (als_G_1 ld scale valt g0 ga gb p0 p1 (take_ax y0 A) (mk_pop p1.1.2 e1 b1 x1)),
      mk_pop p1.1.2 e1 b1 x1, take_ax y0 A) (als_inputs p1 ps (mk_pops [seq p.1.2 | p <- ps] es bs xs) b1 bs key 4))
    (fun co => E (drop_weights (fin key (last b1 bs) backward (lw0, y0)
       ((als_G_1 ld scale valt g0 ga gb p0 p1 (take_ax y0 A) (mk_pop p1.1.2 e1 b1 x1), A, take_ax y0 A, mk_pop p1.1.2 e1 b1 x1) :: co.2))) f).
transitivity (\sum_e1 iid (noise p1.1.1) e1 * lsum [seq iid (noise p.1.1) | p <- ps] (fun es =>
    E (rs (split key 3) (normalize lw0) b0 b1 true) (fun A => G A e1 es))).
  apply: eq_bigr => e1 _; congr (_ * _); apply: eq_lsum => es.
  rewrite /drop_weights E_bind E_bind /als_forward E_bind; apply: eq_E => A; rewrite E_bind; apply: eq_E => -[c os].
  by rewrite /drop_weights [RHS]E_bind.
under eq_bigr do rewrite (lsum_E _ (rs _ _ _ _ _) (fun A es => G A _ es)).
rewrite E_sumE; apply: eq_E => A; rewrite [RHS]/=; apply: eq_bigr => e1 _; congr (_ * _).
have pe : pcol (hpaths (lw0, y0, [::]) A) 0 = take_ax y0 A by [].
rewrite /hcar /hprev /= pe /G -(sdats_laws p1 b1 key 4 sx sb).
rewrite -[RHS](@lsum_scan _ _ _ _ (fun i => iid (noise (d_p i).1.1)) (fun c i e => body c (sdat_inp i e))).
apply: eq_lsum_size => es; rewrite size_map => se.
have ss : size (sdats p1 ps xs b1 bs key 4) = size ps.
  by rewrite -(size_map d_z) sdats_refs // size_zip sx sb minnn.
by rewrite inputs_sdats ?se // scan_map.
Qed.

Theorem als_sumE key x0 x1 xs b0 b1 bs (backward : bool) f :
  size xs = size ps -> size bs = size ps ->
  (backward -> (0 < size ps)%N /\ forall a a' b c,
     Gamma_t (nth p1 (p1 :: ps) 0) (nth p1 (p1 :: ps) 1) a b c = Gamma_t (nth p1 (p1 :: ps) 0) (nth p1 (p1 :: ps) 1) a' b c) ->
  als_sum key x0 x1 xs b0 b1 bs backward f
  = E (pkern ainit z0 (gmv mv (mv_key backward key (size ps).+1)) (rev (all_steps p1 ps key)) backward
        (rev (zip (x0 :: x1 :: xs) (b0 :: b1 :: bs))))
      (fun p => f (unzip1 (rev p), unzip2 (rev p))).
Proof.
move=> sx sb ff; rewrite als_sum_fwd // /pkern E_bind; apply: eq_E_always.
apply: always_imp (pfwd_size _ _ _ _) => -[h0 outs]; rewrite size_rev all_steps_size => so.
rewrite (@finE X n' Q setting ld scale valt g0 ga gb mv p0 p1 ps key _ backward h0 outs (rev (all_steps p1 ps key))) //.
- by rewrite E_bind last_rev_zip ?sx ?sb // so.
- by rewrite size_rev all_steps_size so.
- exact: gams_steps.
Qed.

(** The invariance statement given the auxiliary variables. *)
Theorem als_given key (backward : bool) :
  (backward -> (0 < size ps)%N /\ forall a a' b c,
     Gamma_t (nth p1 (p1 :: ps) 0) (nth p1 (p1 :: ps) 1) a b c = Gamma_t (nth p1 (p1 :: ps) 0) (nth p1 (p1 :: ps) 1) a' b c) ->
  good mv (size ps).+1 (sm_target p1 ps)
    (fun x0 xs b0 bs f => match xs, bs with
      | x1 :: xs', b1 :: bs' => als_sum key x0 x1 xs' b0 b1 bs' backward f
      | _, _ => 0
      end).
Proof.
move=> ff.
pose KK := fun x0 xs b0 bs f => E (pkern ainit z0 (gmv mv (mv_key backward key (size ps).+1)) (rev (all_steps p1 ps key)) backward
        (rev (zip (x0 :: xs) (b0 :: bs)))) (fun p => f (unzip1 (rev p), unzip2 (rev p))).
apply: (@eq_good _ _ _ _ _ _ KK).
  move=> x0 [|x1 xs] b0 [|b1 bs] f //= [sx] [sb]; exact: als_sumE.
have zz x0 (xs : (size ps).+1.-tuple X) b0 (bs : (size ps).+1.-tuple 'I_n) :
   (unzip1 (rev (rev (zip (x0 :: xs) (b0 :: bs)))), unzip2 (rev (rev (zip (x0 :: xs) (b0 :: bs))))) = (x0 :: xs, b0 :: bs : seq 'I_n).
  by rewrite revK unzip1_zip ?unzip2_zip //= !size_tuple.
have tE (f : seq X * seq 'I_n -> R) : traj_sum (size ps).+1 (fun x0 xs b0 bs => sm_target p1 ps x0 xs * f (x0 :: xs, b0 :: bs))
   = ppsum ainit (rev (all_steps p1 ps key)) (fun p => f (unzip1 (rev p), unzip2 (rev p))).
  rewrite -ppsum_traj; apply: eq_bigr => x0 _; apply: eq_bigr => b0 _; apply: eq_bigr => xs _; apply: eq_bigr => bs _.
  by rewrite zz.
have kE (f : seq X * seq 'I_n -> R) : traj_sum (size ps).+1 (fun x0 xs b0 bs => sm_target p1 ps x0 xs * KK x0 xs b0 bs f)
   = ppsum ainit (rev (all_steps p1 ps key)) (fun q => E (pkern ainit z0 (gmv mv (mv_key backward key (size ps).+1)) (rev (all_steps p1 ps key)) backward q)
        (fun p => f (unzip1 (rev p), unzip2 (rev p)))).
  by rewrite -ppsum_traj.
split=> [gm f|c eps mvb f fc].
- rewrite kE (tE (fun r => f r.1 r.2)); apply: pkern_invariant => //; first exact: ainit_ok.
    exact: all_steps_ok.
  move=> lw g; rewrite -[RHS](gm (mv_key backward key (size ps).+1) (normalize lw)); last exact: normalize_prob.
  by apply: eq_bigr => k _; rewrite /gmv E_bind.
- rewrite kE (tE (fun r => f r.1 r.2)) (tE (fun _ => eps)).
  apply: (@pkern_error X n' ainit z0 ainit_ok _ _ (all_steps_ok _ _ _) backward _ c eps) => //.
  move=> lw g gc /=.
  have := mvb (mv_key backward key (size ps).+1) (normalize lw) g (normalize_prob lw) gc.
  by congr (`|_ - _| <= _); apply: eq_bigr => k _; rewrite /gmv E_bind.
Qed.
End Fwd.
End Given.

(** ** Mixing over the auxiliary variables *)
Section Mix.
Variables (X : finZmodType) (n' : nat) (Q setting : Type).
Local Notation n := n'.+1.
Local Notation pop := (pop X n').
Local Notation lwts := (lwts n').
Local Notation QQ := (setting * X * Q)%type.
Variables (noise ld : setting -> X -> R) (scale : setting -> X -> X).
Variables (val0 : X -> R) (valt : X -> X -> Q -> R).
Variables (g0 : X -> X) (ga gb : X -> X -> Q -> X).
Variables (rs : resampler n) (mv : mover n).

Hypothesis noiseP : forall s, prob_vec (noise s).
Hypothesis rs_good : good_resampler rs.
Hypothesis ldE : forall s, exists c, c != 0 /\ forall z, exp (ld s z) = c * noise s z.

Local Notation sm_log := (sm_log ld scale valt ga gb).
Local Notation fgrad := (full_grad ga gb).

Fixpoint alaw (xs : seq X) (ss : seq setting) (gs us : seq X) : R :=
  match xs, ss, gs, us with
  | x :: xs', s :: ss', g :: gs', u :: us' => noise s (u - (x + scale s g)) * alaw xs' ss' gs' us'
  | _, _, _, _ => 1
  end.

Lemma lsum_alaw xs ss gs G : size xs = size ss -> size gs = size ss ->
  lsum [seq noise s | s <- ss] (fun es => G (sm_aux scale xs ss gs es))
  = \sum_(us : (size ss).-tuple X) alaw xs ss gs us * G us.
Proof.
elim: ss xs gs G => [|s ss IH] [|x xs] [|g gs] G //=.
  by move=> _ _; rewrite (sum_tuple0 (fun us => 1 * G us)) mul1r.
move=> [s1] [s2].
rewrite (@sum_tuple_cons X _ (fun us => (match us with u :: us' => noise s (u - (x + scale s g)) * alaw xs ss gs us' | [::] => 1 end) * G us)).
rewrite (eq_bigr (fun y => noise s y * (\sum_(us : (size ss).-tuple X) alaw xs ss gs us *
    G ((x + scale s g + y) :: us)))); last first.
  by move=> y _; rewrite (IH xs gs (fun us => G ((x + scale s g + y) :: us))).
rewrite (sum_shift _ _ (fun u => \sum_(us : (size ss).-tuple X) alaw xs ss gs us * G (u :: us))).
apply: eq_bigr => u _; rewrite mulr_sumr; apply: eq_bigr => us _.
by rewrite mulrA.
Qed.

Lemma alaw_sum xs ss gs : size xs = size ss -> size gs = size ss ->
  \sum_(us : (size ss).-tuple X) alaw xs ss gs us = 1.
Proof.
move=> s1 s2; have := @lsum_alaw xs ss gs (fun _ => 1) s1 s2; rewrite lsum_const => [H|nu].
  by rewrite [RHS]H; apply: eq_bigr => us _; rewrite mulr1.
by move=> /List.in_map_iff [s [<- _]].
Qed.

Local Notation cst := (@ucst X setting noise ld).

Local Notation alog := (alog ld scale).

Lemma exp_alog xs ss gs us : size xs = size ss -> size gs = size ss -> size us = size ss ->
  exp (alog xs ss gs us) = cst ss * alaw xs ss gs us.
Proof.
elim: ss xs gs us => [|s ss IH] [|x xs] [|g gs] [|u us] //=.
  by rewrite /ucst big_nil exp_0 mulr1.
move=> [s1] [s2] [s3]; rewrite /ucst big_cons -/(cst ss) expRD IH // (exp_ldE ldE).
by move: (noise _ (u - _)) (exp _ / _) (cst ss) (alaw _ _ _ _) => a b c d; Rring.
Qed.

Lemma sm_aux_size xs ss gs es : size xs = size ss -> size gs = size ss -> size es = size ss ->
  size (sm_aux scale xs ss gs es) = size ss.
Proof. by elim: ss xs gs es => [|s ss IH] [|x xs] [|g gs] [|e es] //= [s1] [s2] [s3]; rewrite IH. Qed.

Definition ksum key b0 bs x0 xs (backward : bool) (s0 : setting) ss (u0 : X) us qs (f : seq X * seq 'I_n -> R) : R :=
  match zip (zip ss us) qs, xs, bs with
  | p1 :: ps, x1 :: xs', b1 :: bs' =>
      als_sum noise ld scale val0 valt g0 ga gb rs mv (s0, u0) p1 ps key x0 x1 xs' b0 b1 bs' backward f
  | _, _, _ => 0
  end.

Lemma als_kernelE key x0 xs b0 bs s0 ss qs backward f : (0 < size qs)%N ->
  size ss = size qs -> size xs = size qs -> size bs = size qs ->
  E (drop_weights (als_kernel noise ld scale val0 valt g0 ga gb rs mv key x0 xs b0 bs s0 ss qs backward)) f
  = \sum_(us : (size (s0 :: ss)).-tuple X) alaw (x0 :: xs) (s0 :: ss) (fgrad (g0 x0) x0 xs qs) us
      * ksum key b0 bs x0 xs backward s0 ss (head 0 us) (behead us) qs f.
Proof.
move=> q0 s1 s2 s3.
have z1 : size (x0 :: xs) = size (s0 :: ss) by rewrite /= s2 s1.
have z2 : size (fgrad (g0 x0) x0 xs qs) = size (s0 :: ss) by rewrite fgrad_size //= s1.
rewrite -(lsum_alaw (fun us => ksum key b0 bs x0 xs backward s0 ss (head 0 us) (behead us) qs f) z1 z2).
rewrite /drop_weights E_bind /als_kernel E_bind E_normals; apply: eq_bigr => e0 _; congr (_ * _).
apply: eq_lsum_size => es; rewrite size_map => se; cbv beta iota zeta; rewrite E_bind E_normals.
have := fgrad_size ga gb (g0 x0) x0 s2; clear z1 z2.
case: (fgrad (g0 x0) x0 xs qs) => [|g gs] //= [sg].
have := @sm_aux_size xs ss gs es; rewrite sg s2 s1 se s1 => /(_ erefl erefl erefl).
move: (sm_aux _ _ _ _ _) => us su /=.
rewrite /ksum /=.
case: qs q0 s1 s2 s3 su {sg se} => [|q qs] // _ s1 s2 s3 su.
case: ss s1 => [|s ss] // [s1]; case: us su => [|u us] // [su]; case: xs s2 => [|x xs] // [s2]; case: bs s3 => [|b bs] // [s3].
rewrite /als_sum /=; apply: eq_bigr => d0 _; congr (_ * _); apply: eq_bigr => d1 _; congr (_ * _).
have -> : [seq iid (noise p.1.1) | p <- zip (zip ss us) qs] = [seq @iid X n' (noise s) | s <- ss].
  by elim: qs ss us s1 su {s2 s3} => [|q' qs IH] [|s' ss] [|u' us] //= [t1] [t2]; rewrite IH.
have -> : [seq p.1.2 | p <- zip (zip ss us) qs] = us.
  by elim: qs ss us s1 su {s2 s3} => [|q' qs IH] [|s' ss] [|u' us] //= [t1] [t2]; rewrite IH.
by apply: eq_lsum => ds; rewrite /drop_weights [RHS]E_bind.
Qed.

Theorem als_good key s0 ss qs (backward : bool) : (0 < size qs)%N -> size ss = size qs ->
  (backward -> (1 < size qs)%N /\ forall q, ohead qs = Some q -> forall a a' b, gb a b q = gb a' b q) ->
  good mv (size qs) (path_target val0 valt qs)
    (fun x0 xs b0 bs => E (drop_weights (als_kernel noise ld scale val0 valt g0 ga gb rs mv key x0 xs b0 bs s0 ss qs backward))).
Proof.
move=> q0 s1 ff.
pose w x0 xs (us : (size (s0 :: ss)).-tuple X) := alaw (x0 :: xs) (s0 :: ss) (fgrad (g0 x0) x0 xs qs) us.
pose K (us : (size (s0 :: ss)).-tuple X) x0 xs b0 bs f := ksum key b0 bs x0 xs backward s0 ss (head 0 us) (behead us) qs f.
pose T (us : (size (s0 :: ss)).-tuple X) x0 xs :=
  if zip (zip ss (behead us)) qs is p1 :: ps then
    sm_target ld scale val0 valt g0 ga gb (s0, head 0 (us : seq X)) p1 ps x0 xs else 0.
apply: (@eq_good _ _ _ _ _ _ (fun x0 xs b0 bs f => \sum_us w x0 xs us * K us x0 xs b0 bs f)).
  by move=> x0 xs b0 bs f sx sb; rewrite als_kernelE.
have Kp : 0 < cst (s0 :: ss).
  have pos s : 0 < exp (ld s 0) / noise s 0.
    by rewrite divr_gt0 ?expR_gt0 // lt0r (noise_nz ldE) (proj1 (noiseP s)).
  rewrite /ucst; elim: (s0 :: ss) => [|s l IH]; first by rewrite big_nil ltr01.
  by rewrite big_cons mulr_gt0.
apply: (@good_mix X n' mv _ _ w _ T K (fun=> (cst (s0 :: ss))^-1)).
- by move=> _; rewrite invr_gt0.
- by move=> x0 xs sx; apply: alaw_sum; rewrite ?fgrad_size //= ?sx ?s1.
- move=> us x0 xs sx; rewrite /w /T.
  have := size_tuple us; move: (tval us) => {}us su.
  have z1 : size (x0 :: xs) = size (s0 :: ss) by rewrite /= sx s1.
  have z2 : size (fgrad (g0 x0) x0 xs qs) = size (s0 :: ss) by rewrite fgrad_size //= s1.
  have H := exp_alog z1 z2 su.
  have -> : alaw (x0 :: xs) (s0 :: ss) (fgrad (g0 x0) x0 xs qs) us = (cst (s0 :: ss))^-1 * exp (alog (x0 :: xs) (s0 :: ss) (fgrad (g0 x0) x0 xs qs) us).
    by rewrite H mulrA mulVf ?mul1r // lt0r_neq0.
  rewrite mulrCA; congr (_ * _); clear H z1 z2 w K T ff Kp.
  case: qs q0 s1 sx => [|q qs] // _; case: ss us su => [|s ss] us su // [s1].
  case: us su => [|u0 [|u1 us]] // [su]; case: xs => [|x1 xs] // [sx].
  rewrite /sm_target /path_target -expRD; congr (exp _).
  by rewrite -tele // -?s1 // su.
- move=> us; rewrite /K /T /ksum.
  have := size_tuple us; move: (tval us) => {}us su; clear w K T Kp.
  case: qs q0 s1 ff => [|q qs] // _ s1 ff; case: ss us su s1 => [|s ss'] us su // [s1].
  case: us su => [|u0 [|u1 us']] // [su].
  have H := @als_given X n' Q setting noise ld scale val0 valt g0 ga gb rs mv noiseP rs_good ldE (s0, u0) (s, u1, q) (zip (zip ss' us') qs) key backward.
  have sz : size (zip (zip ss' us') qs) = size qs by rewrite !size_zip su s1 !minnn.
  rewrite sz in H; apply: H => bb; have [l2 Hg] := ff bb; split=> //.
  move=> a a' b c /=; case: (zip (zip ss' us') qs) => [|[[s' u'] q'] l] /=; by rewrite !(Hg q erefl a a').
Qed.
End Mix.
