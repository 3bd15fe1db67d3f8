(** * ErgodicSweep: the long run of rw_csmc.py, l_csmc_f.py and al_csmc_f.py. *)
From Coq Require Import Reals Lra FunctionalExtensionality.
From mathcomp Require Import all_ssreflect all_algebra.
From Verif Require Import RInst Prog ProgTheory Resampling Spec ResamplingProofs KillingProofs MoveProofs ResamplingSpecs.
From Verif Require Import Csmc SmcTheory CsmcInvariance CsmcProofs SweepTheory AuxCsmc AuxProofs AuxStruct AuxFinal.
From Verif Require Import ErgodicSpec ErgodicTheory ShiftTheory ErgodicContracts ErgodicChain ErgodicCsmc.

Set Implicit Arguments.
Unset Strict Implicit.
Unset Printing Implicit Defensive.
Import GRing.Theory Num.Theory Order.TTheory.
Local Open Scope ring_scope.

Section Sweep.
Variables (X : finZmodType) (n' : nat).
Local Notation n := n'.+1.
Local Notation pop := (pop X n').
Local Notation lwts := (lwts n').
Variables (Y : finType) (PP PP' QQ : Type).
Variables (rs : resampler n) (mv : mover n).
Variables (W0 : pop -> lwts) (Wt : pop -> pop -> PP' -> lwts).
Variables (post : lwts -> lwts) (wof : lwts -> 'I_n -> R).
Variables (Gam : X -> X -> QQ -> R).
Variables (pof : PP -> PP') (qof : PP -> QQ).
Variables (law0 : Y -> R) (gen0 : 'I_n -> X -> Y -> pop).
Variables (law : PP -> Y -> R) (gen : PP -> X -> 'I_n -> X -> Y -> pop).
Hypothesis wofE : forall l, wof (post l) = normalize (post l).
Hypothesis keep0 : forall b x y, gen0 b x y b = x.
Hypothesis keep : forall p xm b x y, gen p xm b x y b = x.
Hypothesis gr : good_resampler rs.
Hypothesis rot : rotates_anc (fun key w i j => rs key w i j true).
Hypothesis mrot : rotates_move (index_of mv).
(** Rotating the random inputs. *)
Variable act : 'I_n -> Y -> Y.
Hypothesis act_bij : forall a, bijective (act a).
Hypothesis law0M : forall a y, law0 (act a y) = law0 y.
Hypothesis lawM : forall p a y, law p (act a y) = law p y.
Hypothesis gen0M : forall a b x y, gen0 (b + a) x (act a y) = moved a (gen0 b x y).
Hypothesis genM : forall p a xm b x y, gen p xm (b + a) x (act a y) = moved a (gen p xm b x y).
Hypothesis W0M : forall x a, W0 (moved a x) = moved_w a (W0 x).
Hypothesis WtM : forall xm xt p a, Wt (moved a xm) (moved a xt) p = moved_w a (Wt xm xt p).
Hypothesis postM : forall l a, post (moved_w a l) = moved_w a (post l).

Local Notation skern := (skern rs mv W0 Wt post wof Gam pof qof law0 gen0 law gen).
Local Notation sinit := (sinit W0 (fun=> 0) law0 gen0).
Local Notation sstep := (sstep rs Wt post Gam pof qof law gen).

Lemma minus_max_moved a (l : lwts) : minus_max (moved_w a l) = moved_w a (minus_max l).
Proof. by apply: functional_extensionality => i; rewrite /minus_max amax_moved. Qed.

Lemma sum_act a (F : Y -> R) : \sum_y F y = \sum_y F (act a y).
Proof. by rewrite (reindex (act a)) //; apply: onW_bij. Qed.

Lemma sinit_moved : init_moved sinit sinit.
Proof.
split=> [a b x f|xt a] /=; last by rewrite W0M minus_max_moved.
by rewrite (sum_act a); apply: eq_bigr => y _; rewrite law0M gen0M.
Qed.

Lemma sstep_moved i i' : a_p i = a_p i' -> step_moved (sstep i) (sstep i').
Proof.
move=> e; split=> [w a a' k j f pw|xm a b x f|xm xt a|x y] /=.
- by apply: (rot (a_key i') (a_key i)).
- rewrite -e (sum_act a); apply: eq_bigr => y _; rewrite lawM ffunE addrK genM //.
- by rewrite -e WtM postM.
- by rewrite e.
Qed.

Lemma ains_moved pp xm xs b bs key c b' bs' key' : size xs = size pp -> size bs = size pp -> size bs' = size pp ->
  all_moved [seq sstep i | i <- ains pp xm xs b bs key c] [seq sstep i | i <- ains pp xm xs b' bs' key' c].
Proof.
elim: pp xm xs b bs c b' bs' => [|p pp IH] xm [|x xs] b [|c0 bs] c b' [|c0' bs'] //= [s1] [s2] [s3].
by split; [exact: sstep_moved|exact: IH].
Qed.

Lemma skern_joint key key' x0 xs b0 bs b0' bs' pp backward (f : seq X -> seq bool -> R) :
  size xs = size pp -> size bs = size pp -> size bs' = size pp ->
  skern key x0 xs b0 bs pp backward (fun r => f r.1 (rchanges (b0 :: bs) r.2))
  = skern key' x0 xs b0' bs' pp backward (fun r => f r.1 (rchanges (b0' :: bs') r.2)).
Proof.
move=> sx sb sb'.
rewrite !(skernE mv W0 Wt (fun=> 0) Gam pof qof law0 law wofE keep0 keep gr _ x0 _ backward (x0, ord0)) //.
have un c0 (cs : seq 'I_n) : size cs = size pp -> unzip1 (rev (zip (x0 :: xs) (c0 :: cs))) = rev (x0 :: xs).
  by move=> sc; rewrite [LHS]map_rev -/(unzip1 _) unzip1_zip //= ?sx ?sc.
have rw c0 (cs : seq 'I_n) (p : seq (X * 'I_n)) : size cs = size pp ->
    f (unzip1 (rev p)) (rchanges (c0 :: cs) (unzip2 (rev p)))
    = f (rev (unzip1 p)) (rev (changes (unzip2 (rev (zip (x0 :: xs) (c0 :: cs)))) (unzip2 p))).
  by move=> sc; rewrite (@rchanges_rev _ _ p (x0 :: xs)) ?/= ?sx ?sc // /unzip1 map_rev.
rewrite (eq_E _ (fun p => rw b0 bs p sb)) (eq_E _ (fun p => rw b0' bs' p sb')).
apply: (gkern_joint (x0, ord0) (x0, ord0) (fun c => split (split key' 2) c) (fun c => split (split key 2) c)
  backward (fun us cs => f (rev us) (rev cs))).
- exact: sinit_moved.
- by apply: all_moved_rev; exact: ains_moved.
- by rewrite !size_rev size_map -(size_map (fun i => (a_x i, a_b i)) (ains _ _ _ _ _ _ _)) ains_ref.
- by rewrite !un.
- by move=> w a k F pw; apply: mrot.
Qed.

Hypotheses (law0P : prob_vec law0) (lawP : forall p, prob_vec (law p)).
Hypothesis mpr : forall key w k, prob_vec w -> proper (mv key w k).

Lemma skern_gproper z0 bk k l b p : proper (gkern sinit z0 bk (gmv mv k) (rev [seq sstep i | i <- l]) b p).
Proof.
apply: gkern_proper.
- by move=> c x; split=> //; [exact: (proj1 law0P)|exact: (proj2 law0P)].
- apply: each_rev; elim: l => [|i l IH] //=; split=> //; split=> [w a c pw|xm c x] /=.
    by have [_] := gr (a_key i) pw; exact.
  by split=> //; [exact: (proj1 (lawP _))|exact: (proj2 (lawP _))].
- by move=> w j pw; apply: proper_bind => //; exact: mpr.
Qed.

Lemma skern_total key x0 xs b0 bs pp backward : size xs = size pp -> size bs = size pp ->
  skern key x0 xs b0 bs pp backward (fun=> 1) = 1.
Proof.
move=> sx sb; rewrite (skernE mv W0 Wt (fun=> 0) Gam pof qof law0 law wofE keep0 keep gr _ x0 _ backward (x0, ord0)) //.
by apply: E_const; exact: skern_gproper.
Qed.

Hypothesis spr : spreads (fun key w i j => rs key w i j true).
Hypothesis lea : leaves_index (index_of mv).
Hypothesis supp0 : forall b x y, exists2 r, 0 < law0 r & forall l, l != b -> gen0 b x r l = y.
Hypothesis supp : forall p xm b x y, exists2 r, 0 < law p r & forall l, l != b -> gen p xm b x r l = y.

Lemma skern_reach key x0 xs b0 bs pp backward ys : (0 < n')%N ->
  size xs = size pp -> size bs = size pp -> size ys = (size pp).+1 ->
  0 < skern key x0 xs b0 bs pp backward (fun r => (r.1 == ys)%:R).
Proof.
move=> n0 sx sb sy.
rewrite (skernE mv W0 Wt (fun=> 0) Gam pof qof law0 law wofE keep0 keep gr _ x0 _ backward (x0, ord0)) //.
apply: possible_E; [exact: skern_gproper|by move=> p; exact: ler0n|].
apply: (@possible_imp _ (fun p => unzip1 p = rev ys)) => [p e|].
  by rewrite [unzip1 _]map_rev [map _ _]e revK eqxx ltr01.
apply: gkern_reach => //; last first.
  move=> w k l pw w0 lk; have pr : proper (index_of mv (mv_key backward key (size pp)) w k).
    by apply: proper_bind => //; exact: mpr.
  by apply: possible_imp (Pr_possible pr (lea (mv_key backward key (size pp)) pw w0 lk)) => i /eqP.
apply: may_reach_all.
- apply: each_rev; elim: (ains _ _ _ _ _ _ _) => [|i l IH] //=; split=> //; split=> [w a b m pw w0 mi|y xm b x] /=.
    have [l' l'b pr] := spr (a_key i) b pw w0 mi; exists l' => //.
    have [_ prp] := gr (a_key i) pw.
    by apply: possible_imp (Pr_possible (prp a b) pr) => A /eqP.
  by have [r r0 H] := supp (a_p i) (xm b) b x y; exists r.
- by move=> y b x; have [r r0 H] := supp0 b x y; exists r.
- by rewrite !size_rev sy size_map -(size_map (fun i => (a_x i, a_b i)) (ains _ _ _ _ _ _ _)) ains_ref // size_zip sx sb minnn.
Qed.

End Sweep.

(** ** The three kernels *)
Section Three.
Variables (X : finZmodType) (n' : nat) (Q : Type).
Local Notation n := n'.+1.
Local Notation pop := (pop X n').
Local Notation lwts := (lwts n').
Variables (setting : Type) (noise ld : setting -> X -> R) (scale : setting -> X -> X).
Variable logH : setting -> pop -> X -> X -> R.
Variables (rs : resampler n) (mv : mover n).
Variables (G0 : X -> R) (Gt : X -> X -> Q -> R) (g0 : X -> X) (gt : X -> X -> Q -> X).
Variables (s0 : setting) (ss : seq setting) (qs : seq Q) (backward : bool).
Hypothesis noiseP : forall s, prob_vec (noise s).
Hypothesis gr : good_resampler rs.
Hypothesis rot : rotates_anc (fun key w i j => rs key w i j true).
Hypothesis mrot : rotates_move (index_of mv).
Hypothesis sz : size ss = size qs.

Lemma mk_pop_moved a u (e : pop) b x : mk_pop u (moved a e) (b + a) x = moved a (mk_pop u e b x).
Proof.
rewrite /mk_pop -upd_moved_pop; congr upd; by apply/ffunP => l; rewrite !ffunE.
Qed.

Lemma iid_moved (nu : X -> R) a (e : pop) : iid nu (moved a e) = iid nu e.
Proof. by rewrite /iid (prod_moved a); apply: eq_bigr => i _; rewrite ffunE addrK. Qed.

Definition pact (a : 'I_n) (r : X * pop) : X * pop := (r.1, moved a r.2).

Lemma moved_bij a : bijective (@moved n' X a).
Proof. by exists (moved (- a)) => x; apply/ffunP => l; rewrite !ffunE ?opprK ?addrK ?subrK. Qed.

Lemma pact_bij a : bijective (pact a).
Proof.
have [g h1 h2] := moved_bij a.
by exists (fun r => (r.1, g r.2)) => -[u e] /=; rewrite /pact /= (h1, h2).
Qed.

Lemma mlaw_moved s a r : mlaw noise s (pact a r) = mlaw noise s r.
Proof. by rewrite /mlaw /= iid_moved. Qed.

Lemma Wt_moved (G : X -> X -> Q -> R) (xm xt : pop) q a :
  (fun i => G (moved a xm i) (moved a xt i) q) = moved_w a (fun i => G (xm i) (xt i) q).
Proof. by apply: functional_extensionality => i; rewrite /moved_w !ffunE. Qed.

Definition rw_kern key x0 xs b0 bs := drop_weights (rw_kernel noise rs mv G0 Gt xpredT key x0 xs b0 bs s0 ss qs backward).
Definition l_kern key x0 xs b0 bs :=
  drop_weights (l_kernel noise scale logH rs mv G0 Gt g0 gt key x0 xs b0 bs s0 ss qs backward).
Definition al_kern key x0 xs b0 bs :=
  drop_weights (al_kernel noise ld scale rs mv G0 Gt g0 gt key x0 xs b0 bs s0 ss qs backward).

Let spp : size (zip ss qs) = size qs. Proof. by rewrite size_zip sz minnn. Qed.

Lemma mgen0_keep d b x (y : X * pop) : mgen0 d s0 b x y b = x.
Proof. by rewrite /mgen0 /mk_pop upd_same. Qed.
Lemma mgen_keep d (p : setting * Q) xm b x (y : X * pop) : mgen d p xm b x y b = x.
Proof. by rewrite /mgen /mk_pop upd_same. Qed.

Lemma rw_joint key key' x0 xs b0 bs b0' bs' (f : seq X -> seq bool -> R) :
  size xs = size qs -> size bs = size qs -> size bs' = size qs ->
  E (rw_kern key x0 xs b0 bs) (fun r => f r.1 (rchanges (b0 :: bs) r.2))
  = E (rw_kern key' x0 xs b0' bs') (fun r => f r.1 (rchanges (b0' :: bs') r.2)).
Proof.
move=> sx sb sb'; rewrite /rw_kern !rw_kernelE //.
apply: (@skern_joint _ _ _ _ _ _ _ _ _ _ _ _ _ _ _ _ _ _ _ _ _ _ _ _ _ pact); rewrite ?spp //.
- exact: wof_exp.
- exact: mgen0_keep.
- exact: mgen_keep.
- exact: pact_bij.
- exact: mlaw_moved.
- by move=> p a y; exact: mlaw_moved.
- by move=> a b x y; exact: mk_pop_moved.
- by move=> p a xm b x y; exact: mk_pop_moved.
- by move=> x a; apply: functional_extensionality => i; rewrite /moved_w ffunE.
- by move=> xm xt p a; exact: Wt_moved.
- by move=> l a; exact: normalize_log_moved.
Qed.

Lemma rw_free key key' x0 xs b0 bs b0' bs' (f : seq X -> R) :
  size xs = size qs -> size bs = size qs -> size bs' = size qs ->
  E (rw_kern key x0 xs b0 bs) (fun r => f r.1) = E (rw_kern key' x0 xs b0' bs') (fun r => f r.1).
Proof. by move=> sx sb sb'; exact: (rw_joint key key' x0 b0 b0' (fun us _ => f us)). Qed.

Hypothesis logHM : forall s (x : pop) a phi y, logH s (moved a x) phi y = logH s x phi y.

Lemma l_joint key key' x0 xs b0 bs b0' bs' (f : seq X -> seq bool -> R) :
  size xs = size qs -> size bs = size qs -> size bs' = size qs ->
  E (l_kern key x0 xs b0 bs) (fun r => f r.1 (rchanges (b0 :: bs) r.2))
  = E (l_kern key' x0 xs b0' bs') (fun r => f r.1 (rchanges (b0' :: bs') r.2)).
Proof.
move=> sx sb sb'; rewrite /l_kern !l_kernelE //.
apply: (@skern_joint _ _ _ _ _ _ _ _ _ _ _ _ _ _ _ _ _ _ _ _ _ _ _ _ _ pact); rewrite ?spp //.
- exact: mgen0_keep.
- exact: mgen_keep.
- exact: pact_bij.
- exact: mlaw_moved.
- by move=> p a y; exact: mlaw_moved.
- by move=> a b x y; exact: mk_pop_moved.
- by move=> p a xm b x y; exact: mk_pop_moved.
- by move=> x a; apply: functional_extensionality => i; rewrite /moved_w ffunE logHM.
- by move=> xm xt p a; apply: functional_extensionality => i; rewrite /moved_w /l_Gamma_t_tilde !ffunE logHM.
- by move=> l a; exact: minus_max_moved.
Qed.

Lemma l_free key key' x0 xs b0 bs b0' bs' (f : seq X -> R) :
  size xs = size qs -> size bs = size qs -> size bs' = size qs ->
  E (l_kern key x0 xs b0 bs) (fun r => f r.1) = E (l_kern key' x0 xs b0' bs') (fun r => f r.1).
Proof. by move=> sx sb sb'; exact: (l_joint key key' x0 b0 b0' (fun us _ => f us)). Qed.

Lemma al_joint key key' x0 xs b0 bs b0' bs' (f : seq X -> seq bool -> R) :
  size xs = size qs -> size bs = size qs -> size bs' = size qs ->
  E (al_kern key x0 xs b0 bs) (fun r => f r.1 (rchanges (b0 :: bs) r.2))
  = E (al_kern key' x0 xs b0' bs') (fun r => f r.1 (rchanges (b0' :: bs') r.2)).
Proof.
move=> sx sb sb'; rewrite /al_kern !al_kernelE //.
apply: eq_bigr => u0 _; apply: eq_bigr => us _; congr (_ * _).
have su : size (zip (zip ss us) qs) = size qs by rewrite !size_zip sz size_tuple !minnn.
apply: (@skern_joint _ _ _ _ _ _ _ _ _ _ _ _ _ _ _ _ _ _ _ _ _ _ _ _ _ (@moved n' X)); rewrite ?su //.
- by move=> b x y; rewrite /mk_pop upd_same.
- by move=> p xm b x y; rewrite /ugen /mk_pop upd_same.
- exact: moved_bij.
- exact: iid_moved.
- by move=> p a y; exact: iid_moved.
- by move=> a b x y; exact: mk_pop_moved.
- by move=> p a xm b x y; exact: mk_pop_moved.
- by move=> x a; apply: functional_extensionality => i; rewrite /moved_w /al_G_0_tilde ffunE.
- by move=> xm xt p a; apply: functional_extensionality => i; rewrite /moved_w /al_G_t_tilde !ffunE.
- by move=> l a; exact: minus_max_moved.
Qed.

Lemma al_free key key' x0 xs b0 bs b0' bs' (f : seq X -> R) :
  size xs = size qs -> size bs = size qs -> size bs' = size qs ->
  E (al_kern key x0 xs b0 bs) (fun r => f r.1) = E (al_kern key' x0 xs b0' bs') (fun r => f r.1).
Proof. by move=> sx sb sb'; exact: (al_joint key key' x0 b0 b0' (fun us _ => f us)). Qed.

Hypothesis mpr : forall key w k, prob_vec w -> proper (mv key w k).

Lemma rw_total key x0 xs b0 bs : size xs = size qs -> size bs = size qs -> E (rw_kern key x0 xs b0 bs) (fun=> 1) = 1.
Proof.
move=> sx sb; rewrite /rw_kern rw_kernelE //; apply: skern_total; rewrite ?spp //.
- exact: wof_exp.
- exact: mgen0_keep.
- exact: mgen_keep.
- exact: mlawP.
- by move=> p; exact: mlawP.
Qed.

Lemma l_total key x0 xs b0 bs : size xs = size qs -> size bs = size qs -> E (l_kern key x0 xs b0 bs) (fun=> 1) = 1.
Proof.
move=> sx sb; rewrite /l_kern l_kernelE //; apply: skern_total; rewrite ?spp //.
- exact: mgen0_keep.
- exact: mgen_keep.
- exact: mlawP.
- by move=> p; exact: mlawP.
Qed.

Lemma al_total key x0 xs b0 bs : size xs = size qs -> size bs = size qs -> E (al_kern key x0 xs b0 bs) (fun=> 1) = 1.
Proof.
move=> sx sb; rewrite /al_kern al_kernelE //.
rewrite (eq_bigr (fun u0 => noise s0 (u0 - (x0 + scale s0 (g0 x0))))); first exact: shift_prob.
move=> u0 _; rewrite (eq_bigr (fun us : (size qs).-tuple X => noise s0 (u0 - (x0 + scale s0 (g0 x0))) * aux_law noise scale gt x0 xs ss qs us)).
  by rewrite -mulr_sumr aux_law_sum // mulr1.
move=> us _; rewrite -[RHS]mulr1; congr (_ * _).
have su : size (zip (zip ss us) qs) = size qs by rewrite !size_zip sz size_tuple !minnn.
apply: skern_total; rewrite ?su //.
- by move=> b x y; rewrite /mk_pop upd_same.
- by move=> p xm b x y; rewrite /ugen /mk_pop upd_same.
- by apply: iid_prob.
- by move=> p; apply: iid_prob.
Qed.

Hypothesis kp : forall key w i j, always (fun A : {ffun 'I_n -> 'I_n} => A j = i) (rs key w i j true).

Lemma shape_sizes x0 xs b0 bs (m : prog (seq X * seq 'I_n * seq lwts)) : size xs = size qs -> size bs = size qs ->
  always (keeps_shape x0 xs b0 bs) m ->
  always (fun r => size r.1 = (size qs).+1 /\ size r.2 = (size qs).+1) (drop_weights m).
Proof.
move=> sx sb H; apply/always_bind; apply: always_imp H => r [s1 s2 _] /=.
by rewrite s1 s2 sx sb.
Qed.

Hypothesis spr : spreads (fun key w i j => rs key w i j true).
Hypothesis lea : leaves_index (index_of mv).
Hypothesis noise_gt0 : forall s z, 0 < noise s z.

Lemma msupp s (x : X) (d : X) (b : 'I_n) y :
  exists2 r : X * pop, 0 < mlaw noise s r & forall l, l != b -> mk_pop (x + d + r.1) r.2 b x l = y.
Proof.
exists (0, [ffun _ => y - (x + d + 0)]) => [|l lb].
  by rewrite /mlaw mulr_gt0 //; apply: prodr_gt0 => i _.
by rewrite /mk_pop !ffunE (negbTE lb) addrC subrK.
Qed.

Lemma usupp s u (b : 'I_n) (x y : X) :
  exists2 r : pop, 0 < iid (noise s) r & forall l, l != b -> mk_pop u r b x l = y.
Proof.
exists [ffun _ => y - u] => [|l lb]; first by apply: prodr_gt0 => i _.
by rewrite /mk_pop !ffunE (negbTE lb) addrC subrK.
Qed.

Lemma rw_reach key x0 xs b0 bs ys : (0 < n')%N -> size xs = size qs -> size bs = size qs -> size ys = (size qs).+1 ->
  0 < Pr (rw_kern key x0 xs b0 bs) (fun r => r.1 == ys).
Proof.
move=> n0 sx sb sy; rewrite /Pr /rw_kern rw_kernelE //; apply: skern_reach; rewrite ?spp //.
- exact: wof_exp.
- exact: mgen0_keep.
- exact: mgen_keep.
- exact: mlawP.
- by move=> p; exact: mlawP.
- by move=> b x y; exact: msupp.
- by move=> p xm b x y; exact: msupp.
Qed.

Lemma l_reach key x0 xs b0 bs ys : (0 < n')%N -> size xs = size qs -> size bs = size qs -> size ys = (size qs).+1 ->
  0 < Pr (l_kern key x0 xs b0 bs) (fun r => r.1 == ys).
Proof.
move=> n0 sx sb sy; rewrite /Pr /l_kern l_kernelE //; apply: skern_reach; rewrite ?spp //.
- exact: mgen0_keep.
- exact: mgen_keep.
- exact: mlawP.
- by move=> p; exact: mlawP.
- by move=> b x y; exact: msupp.
- by move=> p xm b x y; exact: msupp.
Qed.

Lemma aux_law_gt0 x0 xs us : 0 < aux_law noise scale gt x0 xs ss qs us.
Proof.
elim: (qs) (ss) x0 xs us => [|q qs' IH] [|s ss'] x0 [|x xs] [|u us] //=; rewrite ?ltr01 //.
by rewrite mulr_gt0.
Qed.

Lemma al_reach key x0 xs b0 bs ys : (0 < n')%N -> size xs = size qs -> size bs = size qs -> size ys = (size qs).+1 ->
  0 < Pr (al_kern key x0 xs b0 bs) (fun r => r.1 == ys).
Proof.
move=> n0 sx sb sy; rewrite /Pr /al_kern al_kernelE //.
have pos u0 (us : (size qs).-tuple X) : 0 < noise s0 (u0 - (x0 + scale s0 (g0 x0))) * aux_law noise scale gt x0 xs ss qs us *
   al_given noise ld scale rs mv G0 Gt g0 gt key x0 xs b0 bs s0 ss qs backward (fun r => (r.1 == ys)%:R) u0 us.
  have su : size (zip (zip ss us) qs) = size qs by rewrite !size_zip sz size_tuple !minnn.
  apply: mulr_gt0; first by rewrite mulr_gt0 ?aux_law_gt0.
  apply: skern_reach; rewrite ?su //.
  - by move=> b x y; rewrite /mk_pop upd_same.
  - by move=> p xm b x y; rewrite /ugen /mk_pop upd_same.
  - by apply: iid_prob.
  - by move=> p; apply: iid_prob.
  - by move=> b x y; exact: usupp.
  - by move=> p xm b x y; exact: usupp.
apply: (@sum_pos _ _ 0) => [u0|]; first by apply: sumr_ge0 => us _; exact: ltW.
by apply: (@sum_pos _ _ (nseq_tuple _ 0)) => [us|]; first exact: ltW.
Qed.

Lemma path_target_gt0 x xs : 0 < path_target G0 Gt qs x xs.
Proof. by apply/RltE; exact: exp_pos. Qed.

Lemma rw_settles_near bias d : (0 < n')%N -> 0 <= d -> (forall c, bias c = d * c) ->
  (forall key c, nearly_invariant (size qs) (path_target G0 Gt qs) (rw_kern key) c (d * c)) ->
  settles (size qs) (path_target G0 Gt qs) rw_kern bias.
Proof.
move=> n0 d0 eb near.
apply: (@settles_of X n' (size qs) _ rw_kern [::] _ _ _ _ _ (nseq_tuple _ 0) bias d) => //.
- exact: path_target_gt0.
- move=> key x0 xs b0 bs sx sb; apply: (@shape_sizes x0 xs b0 bs) => //.
  have [H1 H2 H3] := three_shape noise ld scale logH mv G0 Gt g0 gt key x0 b0 s0 kp sz sb sx xpredT backward; exact: H1.
- exact: rw_total.
- exact: rw_free.
- by move=> *; exact: rw_reach.
Qed.

Lemma l_settles_near bias d : (0 < n')%N -> 0 <= d -> (forall c, bias c = d * c) ->
  (forall key c, nearly_invariant (size qs) (path_target G0 Gt qs) (l_kern key) c (d * c)) ->
  settles (size qs) (path_target G0 Gt qs) l_kern bias.
Proof.
move=> n0 d0 eb near.
apply: (@settles_of X n' (size qs) _ l_kern [::] _ _ _ _ _ (nseq_tuple _ 0) bias d) => //.
- exact: path_target_gt0.
- move=> key x0 xs b0 bs sx sb; apply: (@shape_sizes x0 xs b0 bs) => //.
  have [H1 H2 H3] := three_shape noise ld scale logH mv G0 Gt g0 gt key x0 b0 s0 kp sz sb sx xpredT backward; exact: H2.
- exact: l_total.
- exact: l_free.
- by move=> *; exact: l_reach.
Qed.

Lemma al_settles_near bias d : (0 < n')%N -> 0 <= d -> (forall c, bias c = d * c) ->
  (forall key c, nearly_invariant (size qs) (path_target G0 Gt qs) (al_kern key) c (d * c)) ->
  settles (size qs) (path_target G0 Gt qs) al_kern bias.
Proof.
move=> n0 d0 eb near.
apply: (@settles_of X n' (size qs) _ al_kern [::] _ _ _ _ _ (nseq_tuple _ 0) bias d) => //.
- exact: path_target_gt0.
- move=> key x0 xs b0 bs sx sb; apply: (@shape_sizes x0 xs b0 bs) => //.
  have [H1 H2 H3] := three_shape noise ld scale logH mv G0 Gt g0 gt key x0 b0 s0 kp sz sb sx xpredT backward; exact: H3.
- exact: al_total.
- exact: al_free.
- by move=> *; exact: al_reach.
Qed.

Lemma rw_forgets : (0 < n')%N -> forgets_start (size qs) rw_kern.
Proof.
move=> n0; apply: (@forgets_of X n' (size qs) rw_kern [::] _ _ _ _ (nseq_tuple _ 0)).
- move=> key x0 xs b0 bs sx sb; apply: (@shape_sizes x0 xs b0 bs) => //.
  have [H1 H2 H3] := three_shape noise ld scale logH mv G0 Gt g0 gt key x0 b0 s0 kp sz sb sx xpredT backward; exact: H1.
- exact: rw_total.
- exact: rw_free.
- by move=> *; exact: rw_reach.
Qed.

Lemma l_forgets : (0 < n')%N -> forgets_start (size qs) l_kern.
Proof.
move=> n0; apply: (@forgets_of X n' (size qs) l_kern [::] _ _ _ _ (nseq_tuple _ 0)).
- move=> key x0 xs b0 bs sx sb; apply: (@shape_sizes x0 xs b0 bs) => //.
  have [H1 H2 H3] := three_shape noise ld scale logH mv G0 Gt g0 gt key x0 b0 s0 kp sz sb sx xpredT backward; exact: H2.
- exact: l_total.
- exact: l_free.
- by move=> *; exact: l_reach.
Qed.

Lemma al_forgets : (0 < n')%N -> forgets_start (size qs) al_kern.
Proof.
move=> n0; apply: (@forgets_of X n' (size qs) al_kern [::] _ _ _ _ (nseq_tuple _ 0)).
- move=> key x0 xs b0 bs sx sb; apply: (@shape_sizes x0 xs b0 bs) => //.
  have [H1 H2 H3] := three_shape noise ld scale logH mv G0 Gt g0 gt key x0 b0 s0 kp sz sb sx xpredT backward; exact: H3.
- exact: al_total.
- exact: al_free.
- by move=> *; exact: al_reach.
Qed.

End Three.
