(** * DensitySmooth: the kernel of al_csmc_s.py given all particles, on any abelian group. *)
From Coq Require Import Reals FunctionalExtensionality Lra.
From mathcomp Require Import all_ssreflect all_algebra.
From Verif Require Import RInst Prog ProgTheory Resampling Spec ResamplingProofs.
From Verif Require Import KillingProofs MoveProofs ResamplingSpecs Csmc SmcTheory BackwardProofs.
From Verif Require Import CsmcInvariance AuxCsmc Smooth PathTheory FrozenPath SmoothBack DensitySpec SmoothSpec DensitySmoothSpec.

Set Implicit Arguments.
Unset Strict Implicit.
Unset Printing Implicit Defensive.
Import GRing.Theory Num.Theory Order.TTheory.
Local Open Scope ring_scope.

Section Given.
Variables (X : zmodType) (n' : nat) (Q setting : Type).
Local Notation n := n'.+1.
Local Notation pop := (pop X n').
Local Notation anc := (anc n').
Local Notation lwts := (lwts n').
Local Notation Z := (X * 'I_n)%type.
Local Notation QQ := (setting * X * Q)%type.
Local Notation hist := (hist X n').
Local Notation pstep := (pstep X n').
Local Notation fstep := (fstep X n').
Variables (ld : setting -> X -> R) (scale : setting -> X -> X).
Variables (val0 : X -> R) (valt : X -> X -> Q -> R).
Variables (g0 : X -> X) (ga gb : X -> X -> Q -> X).
Variables (rs : resampler n) (mv : mover n).
Hypothesis rs_good : good_resampler rs.

Local Notation Gamma_0 := (sm_Gamma_0 ld scale val0 g0).
Local Notation Gamma_1 := (sm_Gamma_1 ld scale valt g0 ga gb).
Local Notation Gamma_t := (sm_Gamma_t ld scale valt ga gb).
Local Notation body := (als_body ld scale valt ga gb rs).
Local Notation sm_log := (sm_log ld scale valt ga gb).
Local Notation pcol := (@pcol X n').
Local Notation hout := (@hout X n').
Local Notation hcar := (@hcar X n').
Local Notation z0 := (@z0 X n').

Variables (p0 : setting * X) (y0 : pop).

(** Log-density of the particles other than [b]. *)
Definition others (s : setting) (u : X) (y : pop) (b : 'I_n) : R := \sum_(i | i != b) ld s (y i - u).

Definition yinit : ginit X n' :=
  GInit (fun _ _ => Ret y0) (fun x0 => minus_max (als_G_0 ld scale val0 g0 p0 x0)) (Gamma_0 p0).
Local Notation D0 := (fun b => exp (others p0.1 p0.2 y0 b)).

Definition ystep1 (p1 : QQ) (y : pop) (key : key) : pstep :=
  PStep (fun w i j => rs key w i j true) (fun _ _ _ => Ret y)
        (fun ps xt => als_G_1 ld scale valt g0 ga gb p0 p1 (pcol ps 0) xt)
        (fun p x => Gamma_1 p0 p1 (nth 0 p 0) x).

Definition ystep (pm p : QQ) (y : pop) (key : key) : pstep :=
  PStep (fun w i j => rs key w i j true) (fun _ _ _ => Ret y)
        (fun ps xt => minus_max (als_G_t ld scale valt ga gb pm p (pcol ps 1) (pcol ps 0) xt))
        (fun p' x => Gamma_t pm p (nth 0 p' 1) (nth 0 p' 0) x).

Definition yst (s : pstep) (p : QQ) (y : pop) : fstep := FStep s y (fun b => exp (others p.1.1 p.1.2 y b)).

Fixpoint ysteps (pm : QQ) (ps : seq QQ) (ys : seq pop) (key : key) (c : nat) : seq fstep :=
  match ps, ys with
  | p :: ps', y :: ys' => yst (ystep pm p y (split key c)) p y :: ysteps p ps' ys' key c.+1
  | _, _ => [::]
  end.

Definition ysteps_all (p1 : QQ) (ps : seq QQ) (y1 : pop) (ys : seq pop) (key : key) : seq fstep :=
  yst (ystep1 p1 y1 (split key 3)) p1 y1 :: ysteps p1 ps ys key 4.

Lemma others_all (g : R) s u (y : pop) b :
  exp g * exp (others s u y b) = exp (\sum_i ld s (y i - u)) * exp (g - ld s (y b - u)).
Proof.
rewrite -!expRD /others [\sum_i ld _ _](bigD1 b) //=; congr (exp _).
by move: (ld _ _) (\sum_(i | _) _); clear; move=> *; toR; lra.
Qed.

Lemma yinit_ok : finit_ok yinit y0 D0.
Proof.
split=> //; exists (exp (\sum_i ld p0.1 (y0 i - p0.2)) * exp (amax (als_G_0 ld scale val0 g0 p0 y0))).
  by apply/ltW/mulr_gt0; apply: expR_gt0.
move=> b; rewrite others_all -mulrA -[exp (amax _) * _]expRD /= /minus_max; congr (_ * exp _).
by rewrite [RHS]addrC subrK.
Qed.

Lemma ystep1_ok p1 y key : prs_ok (ystep1 p1 y key) /\ fprop_ok (yst (ystep1 p1 y key) p1 y).
Proof.
split; first by move=> w pw; exact: rs_good.
split=> // ps; exists (exp (\sum_i ld p1.1.1 (y i - p1.1.2))); first exact/ltW/expR_gt0.
by move=> b; rewrite others_all /= /als_G_1 /pcol ffunE.
Qed.

Lemma ystep_ok pm p y key : prs_ok (ystep pm p y key) /\ fprop_ok (yst (ystep pm p y key) p y).
Proof.
split; first by move=> w pw; exact: rs_good.
split=> // ps; set G := als_G_t ld scale valt ga gb pm p (pcol ps 1) (pcol ps 0) y.
exists (exp (\sum_i ld p.1.1 (y i - p.1.2)) * exp (amax G)).
  by apply/ltW/mulr_gt0; apply: expR_gt0.
move=> b; rewrite others_all -mulrA -[exp (amax _) * _]expRD /= /minus_max; congr (_ * exp _).
by rewrite -/G [RHS]addrC subrK /G /als_G_t /pcol !ffunE.
Qed.

Lemma fsteps_ok_catrev (l st : seq fstep) :
  fsteps_ok (catrev l st) <-> fsteps_ok (rev l) /\ fsteps_ok st.
Proof.
rewrite /rev; elim: l st => [|s l IH] st /=; first tauto.
by rewrite IH (IH [:: s]) /=; split=> [[? []]|[[? []]]].
Qed.

Lemma ysteps_all_ok p1 ps y1 ys key : fsteps_ok (rev (ysteps_all p1 ps y1 ys key)).
Proof.
rewrite /rev /ysteps_all /= fsteps_ok_catrev; split; last first.
  by have [] := ystep1_ok p1 y1 (split key 3).
elim: ps ys p1 (4%N) => [|p ps IH] [|y ys] pm c //=.
rewrite /rev /= fsteps_ok_catrev; split; first exact: IH.
by have [] := ystep_ok pm p y (split key c).
Qed.

Lemma ysteps_all_size p1 ps y1 ys key : size ys = size ps -> size (ysteps_all p1 ps y1 ys key) = (size ps).+1.
Proof.
by rewrite /= => sz; congr _.+1; elim: ps ys p1 (4%N) sz => [|p ps IH] [|y ys] pm c //= [sz]; rewrite IH.
Qed.

(** ** The target *)
Fixpoint oth (ps : seq QQ) (ys : seq pop) (bs : seq 'I_n) : R :=
  match ps, ys, bs with
  | p :: ps', y :: ys', b :: bs' => others p.1.1 p.1.2 y b + oth ps' ys' bs'
  | _, _, _ => 0
  end.

Lemma ffsum_tuple pm ps ys key c (p : seq Z) F : size ys = size ps ->
  ffsum (ysteps pm ps ys key c) p F
  = \sum_(bs : (size ps).-tuple 'I_n)
      exp (sm_log pm (nth 0 (unzip1 p) 1) (nth 0 (unzip1 p) 0) (pick ys bs) ps + oth ps ys bs)
        * F (zip (pick ys bs) bs).
Proof.
elim: ps ys pm c p F => [|q ps IH] [|y ys] pm c p F //=.
  by move=> _; rewrite (sum_tuple0 (fun bs => exp (0 + 0) * F (zip [::] bs))) /= addr0 exp_0 mul1r.
move=> [sz]; set a := nth 0 _ 1; set b := nth 0 _ 0.
rewrite (@sum_tuple_cons _ _ (fun bs => exp (sm_log pm a b (pick (y :: ys) bs) (q :: ps) + oth (q :: ps) (y :: ys) bs) * F (zip (pick (y :: ys) bs) bs))).
apply: eq_bigr => i _ /=; rewrite IH // mulr_sumr; apply: eq_bigr => bs _.
rewrite mulrA -!expRD; congr (exp _ * _) => /=.
by move: (SmoothBack.sm_log _ _ _ _ _ _ _ _ _ _) (oth _ _ _) (others _ _ _ _) (sm_Gamma_t _ _ _ _ _ _ _ _ _ _); clear; move=> *; toR; lra.
Qed.

Definition yjoint (p1 : QQ) (ps : seq QQ) (y1 : pop) (ys : seq pop) (b0 : 'I_n) (bs : seq 'I_n) : R :=
  if bs is b1 :: bs' then
    exp (Gamma_0 p0 (y0 b0) + others p0.1 p0.2 y0 b0
       + (Gamma_1 p0 p1 (y0 b0) (y1 b1) + others p1.1.1 p1.1.2 y1 b1)
       + (sm_log p1 (y0 b0) (y1 b1) (pick ys bs') ps + oth ps ys bs'))
  else 0.

Lemma fsum_idx p1 ps y1 ys key F : size ys = size ps ->
  idx_sum (size ps).+1 (fun b0 bs => yjoint p1 ps y1 ys b0 bs * F (rev (zip (y0 b0 :: pick (y1 :: ys) bs) (b0 :: bs))))
  = fsum yinit y0 D0 (rev (ysteps_all p1 ps y1 ys key)) F.
Proof.
move=> sz; rewrite fsum_rev /idx_sum; apply: eq_bigr => b0 _ /=.
rewrite (@sum_tuple_cons _ _ (fun bs => yjoint p1 ps y1 ys b0 bs * F (rev (zip (y0 b0 :: pick (y1 :: ys) bs) (b0 :: bs))))).
rewrite mulr_sumr; apply: eq_bigr => b1 _ /=.
rewrite ffsum_tuple //= !mulr_sumr; apply: eq_bigr => bs _.
by rewrite !expRD -!mulrA.
Qed.

(** ** The backward pass *)
Section Back.
Variables (p1 : QQ) (ps : seq QQ).
Local Notation gams := (gams ld scale valt g0 ga gb p0 p1 ps).

Lemma ygams_catrev pm ps1 ps2 ys key c (st : seq fstep) : p1 :: ps = ps1 ++ pm :: ps2 -> size st = (size ps1).+1 ->
  gams (map (@f_s X n') st) -> gams (map (@f_s X n') (catrev (ysteps pm ps2 ys key c) st)).
Proof.
elim: ps2 ys pm ps1 c st => [|p ps2 IH] [|y ys] pm ps1 c st //= e sz gs.
apply: (IH ys p (rcons ps1 pm)).
- by rewrite -cats1 -catA.
- by rewrite size_rcons /= sz.
- split=> //=; rewrite size_map sz /=.
  have -> : nth p1 (p1 :: ps) (size ps1) = pm by rewrite e nth_cat ltnn subnn.
  have -> : nth p1 ps (size ps1) = p.
    by have -> : nth p1 ps (size ps1) = nth p1 (p1 :: ps) (size ps1).+1 by []; rewrite e nth_cat ltnNge leqnSn /= subSnn.
  by [].
Qed.

Lemma ygams y1 ys key : gams (map (@f_s X n') (rev (ysteps_all p1 ps y1 ys key))).
Proof. by rewrite /rev /=; apply: (@ygams_catrev _ [::]). Qed.
End Back.

(** ** The forward pass *)
Section Fwd.
Variables (p1 : QQ) (ps : seq QQ).
Local Notation sin := (sinp X n' (QQ * QQ)).
Local Notation fin := (fin ld scale valt g0 ga gb mv p0 p1 ps).

Definition istep (i : sin) : pstep := ystep (s_p i).1 (s_p i).2 (s_x i) (s_key i).
Definition iref (i : sin) : Z := (s_x i (s_b i), s_b i).

Lemma ybodyE h i f : (1 <= size h.2)%N ->
  E (body (hcar h) i) f
  = E (p_rs (istep i) (normalize (hlast h).1) (s_bm1 i) (iref i).2) (fun A =>
      E (p_prop (istep i) (hpaths h A) (iref i).2 (iref i).1) (fun xt =>
        let h' := hcons h (istep i) A xt in f (hcar h', hout h'))).
Proof.
case: h => [h0 [|[[lw A'] x] outs]] // _.
rewrite /als_body /hcar E_bind; apply: eq_E => A.
have e0 : pcol (hpaths (h0, (lw, A', x) :: outs) A) 0 = take_ax x A.
  by apply/ffunP => j; rewrite !ffunE.
have e1 : pcol (hpaths (h0, (lw, A', x) :: outs) A) 1 = take_ax (take_ax (hlast (h0, outs)).2 A') A.
  by apply/ffunP => j; rewrite !ffunE nth1_hpath.
by rewrite /hcons /hcar /hout /hprev /= e0 e1.
Qed.

Lemma inputs_steps pm qs ys b bs key c : size ys = size qs -> size bs = size qs ->
  [seq istep i | i <- als_inputs pm qs ys b bs key c] = map (@f_s X n') (ysteps pm qs ys key c).
Proof. by elim: qs ys bs pm b c => [|p qs IH] [|y ys] [|b' bs] pm b c //= [s1] [s2]; rewrite IH. Qed.

Lemma inputs_refs pm qs ys b bs key c : size ys = size qs -> size bs = size qs ->
  [seq iref i | i <- als_inputs pm qs ys b bs key c] = zip (pick ys bs) bs.
Proof. by elim: qs ys bs pm b c => [|p qs IH] [|y ys] [|b' bs] pm b c //= [s1] [s2]; rewrite IH. Qed.

Lemma inputs_chained pm qs (ys : seq pop) b bs key c : chained iref (@s_bm1 X n' _) b (als_inputs pm qs ys b bs key c).
Proof. by elim: qs ys bs pm b c => [|p qs IH] [|y ys] [|b' bs] pm b c. Qed.

Lemma map_catrev_f (l st : seq fstep) : map (@f_s X n') (catrev l st) = catrev (map (@f_s X n') l) (map (@f_s X n') st).
Proof. by elim: l st => [|s l IH] st //=; rewrite IH. Qed.

Lemma sweep_fwd key (y1 : pop) ys b0 b1 bs backward f :
  size ys = size ps -> size bs = size ps ->
  E (drop_weights (do o <- als_forward ld scale val0 valt g0 ga gb rs key p0 p1 ps b0 b1 bs y0 y1 ys;
       sm_finish ld scale valt g0 ga gb mv key p0 p1 ps (last b1 bs) backward o)) f
  = E (pfwd yinit z0 (map (@f_s X n') (rev (ysteps_all p1 ps y1 ys key)))
         (rev (zip (y0 b0 :: pick (y1 :: ys) (b1 :: bs)) (b0 :: b1 :: bs))))
      (fun h => E (drop_weights (fin key (last b1 bs) backward h.1 (rev (houts hout h.1 h.2)))) f).
Proof.
move=> sy sb.
have := @E_scan_pfwd X n' yinit z0 _ _ _ body istep iref (@s_bm1 X n' _) hcar hout 1 ybodyE
  [:: ystep1 p1 y1 (split key 3)] [:: (y1 b1, b1); (y0 b0, b0)] (als_inputs p1 ps ys b1 bs key 4)
  (fun h0 os => E (drop_weights (fin key (last b1 bs) backward h0 os)) f) isT (inputs_chained _ _ _ _ _ _ _).
rewrite inputs_steps // inputs_refs // /rev [catrev (ysteps_all _ _ _ _ _) _]/= map_catrev_f => <-.
rewrite /drop_weights [LHS]E_bind [LHS]E_bind /als_forward [LHS]E_bind [RHS]/= [RHS]E_bind; apply: eq_E => A.
have pe : pcol (hpaths (minus_max (als_G_0 ld scale val0 g0 p0 y0), y0, [::]) A) 0 = take_ax y0 A by apply/ffunP => j; rewrite !ffunE.
rewrite /hcar /hprev /= pe E_bind.
by apply: eq_E => -[c os] /=; rewrite [RHS]E_bind.
Qed.

Theorem sweepE key y1 ys b0 b1 bs (backward : bool) f :
  size ys = size ps -> size bs = size ps ->
  (backward -> (0 < size ps)%N /\ forall a a' b c,
     Gamma_t (nth p1 (p1 :: ps) 0) (nth p1 (p1 :: ps) 1) a b c = Gamma_t (nth p1 (p1 :: ps) 0) (nth p1 (p1 :: ps) 1) a' b c) ->
  E (drop_weights (do o <- als_forward ld scale val0 valt g0 ga gb rs key p0 p1 ps b0 b1 bs y0 y1 ys;
       sm_finish ld scale valt g0 ga gb mv key p0 p1 ps (last b1 bs) backward o)) f
  = E (pkern yinit z0 (gmv mv (mv_key backward key (size ps).+1)) (map (@f_s X n') (rev (ysteps_all p1 ps y1 ys key))) backward
        (rev (zip (y0 b0 :: pick (y1 :: ys) (b1 :: bs)) (b0 :: b1 :: bs))))
      (fun p => f (unzip1 (rev p), unzip2 (rev p))).
Proof.
move=> sy sb ff; rewrite sweep_fwd // /pkern E_bind; apply: eq_E_always.
apply: always_imp (pfwd_size _ _ _ _) => -[h0 outs]; rewrite size_map size_rev ysteps_all_size // => so.
rewrite (@finE X n' Q setting ld scale valt g0 ga gb mv p0 p1 ps key _ backward h0 outs (map (@f_s X n') (rev (ysteps_all p1 ps y1 ys key)))) //.
- have sp : size (pick ys bs) = size bs.
    by elim: ys bs ps sy sb => [|y ys' IH] [|b bs'] [|p ps'] //= [t1] [t2]; rewrite (IH _ ps').
  by rewrite E_bind [pick (y1 :: ys) (b1 :: bs)]/= last_rev_zip // so.
- by rewrite size_map size_rev ysteps_all_size.
- exact: ygams.
Qed.
End Fwd.
End Given.
