(** * DensitySmoothFinal: the forms of the theorems stated in PropsDensitySmooth. *)
From Coq Require Import Reals FunctionalExtensionality Lra.
From mathcomp Require Import all_ssreflect all_algebra.
From Verif Require Import RInst Prog ProgTheory Resampling Spec ResamplingProofs.
From Verif Require Import KillingProofs MoveProofs ResamplingSpecs Csmc SmcTheory BackwardProofs.
From Verif Require Import CsmcInvariance CsmcProofs AuxCsmc AuxFinal Smooth PathTheory FrozenPath SmoothBack SmoothProofs SmoothFinal.
From Verif Require Import Gauss GaussSpec GaussProofs MarginalProofs MarginalFinal DensitySpec DensityInst DensityFinal SmoothSpec DensitySmoothSpec DensitySmooth.

Set Implicit Arguments.
Unset Strict Implicit.
Unset Printing Implicit Defensive.
Import GRing.Theory Num.Theory Order.TTheory.
Local Open Scope ring_scope.

(** ** Sequences as functions of time *)
Section Lists.
Lemma mkseq2 (A : Type) (f : nat -> A) m : mkseq (fun t => f t.+2) m = [seq f t | t <- iota 2 m].
Proof. by rewrite /mkseq (iotaDl 2 0 m) -map_comp. Qed.

Lemma zip_maps (I A B : Type) (f : I -> A) (g : I -> B) l : zip (map f l) (map g l) = [seq (f i, g i) | i <- l].
Proof. by elim: l => [|i l IH] //=; rewrite IH. Qed.

Lemma pick_maps (I X : Type) n (y : I -> {ffun 'I_n -> X}) (b : I -> 'I_n) l :
  pick (map y l) (map b l) = [seq y i (b i) | i <- l].
Proof. by elim: l => [|i l IH] //=; rewrite IH. Qed.

Lemma later_cons (A : Type) m (f : nat -> A) : later m.+1 f = f 1%N :: [seq f t | t <- iota 2 m].
Proof. by rewrite -mkseq2 /later /mkseq /= (iotaDl 1 0 m) -map_comp. Qed.
End Lists.

Section Joint.
Variables (X : zmodType) (n' : nat) (Q setting : Type).
Local Notation n := n'.+1.
Local Notation pop := (pop X n').
Variables (ld : setting -> X -> R) (scale : setting -> X -> X).
Variables (val0 : X -> R) (valt : X -> X -> Q -> R).
Variables (g0 : X -> X) (ga gb : X -> X -> Q -> X).
Variables (q : nat -> Q) (s : nat -> setting) (u : nat -> X) (y : nat -> pop).
Local Notation P := (fun t => (s t, u t, q t)).

Lemma sm_log_iota (x : nat -> X) k m :
  sm_log ld scale valt ga gb (P k.+1) (x k) (x k.+1) [seq x t | t <- iota k.+2 m] [seq P t | t <- iota k.+2 m]
  = \sum_(i < m) sm_Gamma_t ld scale valt ga gb (P (k + i).+1) (P (k + i).+2) (x (k + i)%N) (x (k + i).+1) (x (k + i).+2).
Proof.
elim: m k => [|m IH] k; first by rewrite big_ord0.
have := IH k.+1; cbn [iota map SmoothBack.sm_log]; rewrite big_ord_recl addn0 => ->; congr (_ + _).
by apply: eq_bigr => i _; rewrite /bump /= addSnnS.
Qed.

Lemma oth_iota (b : nat -> 'I_n) k m :
  oth ld [seq P t | t <- iota k m] [seq y t | t <- iota k m] [seq b t | t <- iota k m]
  = \sum_(i < m) others ld (s (k + i)%N) (u (k + i)%N) (y (k + i)%N) (b (k + i)%N).
Proof.
elim: m k => [|m IH] k /=; first by rewrite big_ord0.
rewrite big_ord_recl addn0 IH; congr (_ + _).
by apply: eq_bigr => i _; rewrite /bump /= addSnnS.
Qed.

Lemma yjointE m b0 (bs : seq 'I_n) : size bs = m.+1 ->
  yjoint ld scale val0 valt g0 ga gb (s 0%N, u 0%N) (y 0%N) (P 1%N) [seq P t | t <- iota 2 m] (y 1%N) [seq y t | t <- iota 2 m] b0 bs
  = smooth_density ld scale val0 valt g0 ga gb q s u y m.+2 b0 bs.
Proof.
case: bs => [|b1 bs] // [sz]; rewrite /yjoint /smooth_density /smooth_log; congr (exp _).
set b := nth b0 _.
have -> : bs = [seq b t | t <- iota 2 m] by rewrite -mkseq2 -sz; exact: (esym (mkseq_nth b0 bs)).
pose x t := y t (b t).
rewrite pick_maps -[y 0%N b0]/(x 0%N) -[y 1%N b1]/(x 1%N) -[[seq y i (b i) | i <- _]]/([seq x i | i <- iota 2 m]).
rewrite (sm_log_iota x 0) (oth_iota b 2).
have := factor ld scale val0 valt g0 ga gb x u s q m.
set S1 := \sum_(i < m) _.
set F := full_log _ _ _ _ _; set A := \sum_(t < m.+2) ld _ _ => H.
have -> : \sum_(t < m.+2) given_ref (ld (s t)) (y t (b t) + scale (s t) (full_gradient g0 ga gb q m.+2 (fun t0 => y t0 (b t0)) t)) (u t) (y t) (b t)
  = A + \sum_(t < m.+2) others ld (s t) (u t) (y t) (b t) by rewrite -big_split.
rewrite [\sum_(t < m.+2) others _ _ _ _ _]big_ord_recl [X in _ = _ + (_ + (_ + X))]big_ord_recl.
rewrite [X in _ = _ + (_ + (_ + (_ + X)))](_ : _ = \sum_(i < m) others ld (s (2 + i)%N) (u (2 + i)%N) (y (2 + i)%N) (b (2 + i)%N)); last by [].
move: H; cbn [fst snd]; rewrite -[b (lift ord0 ord0)]/b1 -[b ord0]/b0.
move: (\sum_(i < m) others _ _ _ _ _) (others _ _ _ _ _) (others _ _ _ _ _) (sm_Gamma_0 _ _ _ _ _ _) (sm_Gamma_1 _ _ _ _ _ _ _ _ _ _) => o2 o1 o0 G0 G1.
by move: F A S1 => F A S1; clear; move=> H; toR; lra.
Qed.
End Joint.

Section Sweep.
Variables (X : zmodType) (n' : nat) (Q setting : Type).
Local Notation n := n'.+1.
Local Notation pop := (pop X n').
Variables (ld : setting -> X -> R) (scale : setting -> X -> X).
Variables (val0 : X -> R) (valt : X -> X -> Q -> R).
Variables (g0 : X -> X) (ga gb : X -> X -> Q -> X).
Variables (rs : resampler n) (mv : mover n).
Hypothesis rs_good : good_resampler rs.
Variables (key : key) (q : nat -> Q) (s : nat -> setting) (u : nat -> X) (y : nat -> pop) (m : nat) (backward : bool).
Hypothesis m0 : (0 < m)%N.
Hypothesis free : backward -> (1 < m)%N /\ forall a a' b, gb a b (q 1%N) = gb a' b (q 1%N).

Local Notation joint := (smooth_density ld scale val0 valt g0 ga gb q s u y m.+1).
Local Notation sweep := (fun b0 bs => drop_weights (als_sweep ld scale val0 valt g0 ga gb rs mv key b0 bs (y 0%N) (later m y)
   (u 0%N) (later m u) (s 0%N) (later m s) (later m q) backward)).
Local Notation P := (fun t => (s t, u t, q t)).
Local Notation init := (yinit ld scale val0 g0 (s 0%N, u 0%N) (y 0%N)).
Local Notation D0 := (fun b => exp (others ld (s 0%N) (u 0%N) (y 0%N) b)).
Local Notation steps := (rev (ysteps_all ld scale valt g0 ga gb rs (s 0%N, u 0%N) (P 1%N) [seq P t | t <- iota 2 m.-1]
  (y 1%N) [seq y t | t <- iota 2 m.-1] key)).
Local Notation kern := (pkern init (@z0 X n') (gmv mv (mv_key backward key m)) (map (@f_s X n') steps) backward).
Local Notation out f := (fun p : seq (X * 'I_n) => f (unzip1 (rev p)) (unzip2 (rev p))).

Lemma sweep_kern f : idx_sum m (fun b0 bs => joint b0 bs * E (sweep b0 bs) (fun r => f r.1 r.2))
  = fsum init (y 0%N) D0 steps (fun p => E (kern p) (out f)).
Proof.
case: m m0 free => [|k] // _ ff.
have sk (A : Type) (g : nat -> A) : size [seq g t | t <- iota 2 k] = k by rewrite size_map size_iota.
rewrite -(@fsum_idx X n' Q setting ld scale val0 valt g0 ga gb rs) ?sk //.
apply: idx_sum_ext => b0 bs sb; rewrite yjointE //; congr (_ * _).
case: bs sb => [|b1 bs] // [sb].
rewrite /als_sweep !later_cons /= !zip_maps.
have := @sweepE X n' Q setting ld scale val0 valt g0 ga gb rs mv (s 0%N, u 0%N) (y 0%N) (P 1%N) [seq P t | t <- iota 2 k] key (y 1%N)
  [seq y t | t <- iota 2 k] b0 b1 bs backward (fun r => f r.1 r.2).
rewrite !sk sb => -> // bb; have [k0 Hg] := ff bb; split=> //.
by move=> a a' b c; case: (k) k0 => [|k'] // _; rewrite /= !(Hg a a').
Qed.

Lemma sweep_target f : idx_sum m (fun b0 bs => joint b0 bs * f (y 0%N b0 :: pick (later m y) bs) (b0 :: bs))
  = fsum init (y 0%N) D0 steps (out f).
Proof.
case: m m0 => [|k] // _.
have sk (A : Type) (g : nat -> A) : size [seq g t | t <- iota 2 k] = k by rewrite size_map size_iota.
rewrite -(@fsum_idx X n' Q setting ld scale val0 valt g0 ga gb rs) ?sk //.
apply: idx_sum_ext => b0 bs sb; rewrite yjointE //; congr (_ * _).
have sp : size (pick (later k.+1 y) bs) = size bs.
  by rewrite -(mkseq_nth ord0 bs) sb /later pick_maps !size_map !size_iota.
by rewrite -later_cons revK unzip1_zip ?unzip2_zip //= sp.
Qed.

Theorem als_density : good_mover mv -> keeps_density (y 0%N) (later m y) joint sweep.
Proof.
move=> gm f; rewrite size_mkseq sweep_kern sweep_target; apply: fkern_invariant.
- exact: yinit_ok.
- exact: ysteps_all_ok.
- move=> lw g; rewrite -[RHS](gm (mv_key backward key m) (normalize lw)); last exact: normalize_prob.
  by apply: eq_bigr => k _; rewrite /gmv E_bind.
Qed.

Theorem als_density_error c eps :
  (forall k w (g : 'I_n -> R), prob_vec w -> (forall j, `|g j| <= c) ->
     `|\sum_j w j * E (mv k w j) (fun r => g r.1) - \sum_j w j * g j| <= eps) ->
  nearly_keeps_density (y 0%N) (later m y) joint sweep c eps.
Proof.
move=> mvb f fc; rewrite size_mkseq sweep_kern sweep_target (sweep_target (fun _ _ => eps)).
apply: (@fkern_error X n' init (y 0%N) D0 (@z0 X n') _ _ _ _ backward _ c eps).
- exact: yinit_ok.
- exact: ysteps_all_ok.
- move=> lw g gc /=.
  have := mvb (mv_key backward key m) (normalize lw) g (normalize_prob lw) gc.
  by congr (`|_ - _| <= _); apply: eq_bigr => k _; rewrite /gmv E_bind.
- by move=> p; exact: fc.
Qed.
End Sweep.

(** ** The kernel on finite groups is its draws of noise followed by the sweep *)
Section Split.
Variables (X : finZmodType) (n' : nat) (Q setting : Type) (noise ld : setting -> X -> R) (scale : setting -> X -> X).
Variables (rs : resampler n'.+1) (mv : mover n'.+1) (val0 : X -> R) (valt : X -> X -> Q -> R).
Variables (g0 : X -> X) (ga gb : X -> X -> Q -> X).
Variables (key : key) (x0 : X) (xs : seq X) (b0 : 'I_n'.+1) (bs : seq 'I_n'.+1).
Variables (s0 : setting) (ss : seq setting) (qs : seq Q) (backward : bool).

Lemma als_split f : let gs := full_grad ga gb (g0 x0) x0 xs qs in
  E (als_kernel noise ld scale val0 valt g0 ga gb rs mv key x0 xs b0 bs s0 ss qs backward) f
  = E (do (u0, us, y0, ys) <- aux_draws noise key x0 xs b0 bs s0 ss (x0 + scale s0 (head 0 gs)) (sm_aux scale xs ss (behead gs));
       als_sweep ld scale val0 valt g0 ga gb rs mv key b0 bs y0 ys u0 us s0 ss qs backward) f.
Proof.
have : full_grad ga gb (g0 x0) x0 xs qs <> [::] by case: xs qs => [|x l] [|q' l'].
by rewrite /als_kernel /aux_draws; cbv zeta; case: (full_grad _ _ _ _ _ _) => [|g gs].
Qed.
End Split.

(** ** Gaussian noise on R^d *)
Section Final.
Variables (d n' : nat) (Q : Type).
Local Notation vec := 'cV[R]_d.
Variables (val0 : vec -> R) (valt : vec -> vec -> Q -> R) (g0 : vec -> vec) (ga gb : vec -> vec -> Q -> vec).
Variables (q : nat -> Q) (s : nat -> R * R) (u : nat -> vec) (y : nat -> {ffun 'I_n'.+1 -> vec}).

Lemma smooth_gauss T :
  smooth_density (fun (s : R * R) z => gauss_kernel (s.2 / 2%:R)%:M z 0) (fun s g => (s.1 / 2%:R) *: g) val0 valt g0 ga gb q s u y T
  = smooth_density (@sizes_ld d) (@sizes_step d) val0 valt g0 ga gb q s u y T.
Proof.
have -> : (fun (s : R * R) (z : vec) => gauss_kernel (s.2 / 2%:R)%:M z 0) = @sizes_ld d.
  by apply: functional_extensionality => a; apply: functional_extensionality => z; exact: noise_ld.
have -> // : (fun (s : R * R) (g : vec) => (s.1 / 2%:R) *: g) = @sizes_step d.
apply: functional_extensionality => a; apply: functional_extensionality => g.
by rewrite /sizes_step mul1r mulrC.
Qed.
End Final.

(** ** Two time steps with backward sampling *)
Section Two.
Variables (X : zmodType) (n' : nat) (Q setting : Type).
Local Notation n := n'.+1.
Variables (ld : setting -> X -> R) (scale : setting -> X -> X).
Variables (val0 : X -> R) (valt : X -> X -> Q -> R).
Variables (g0 : X -> X) (ga gb : X -> X -> Q -> X).
Variables (rs : resampler n) (mv : mover n).

Lemma bsamp_three key p0 p1 ps bT xs xm1 lws : size xs = 2%N ->
  always (fun r => size r.1 = 3%N /\ size r.2 = 3%N)
    (sm_backward_sampling (n' := n') (Q := Q) ld scale valt g0 ga gb mv key p0 p1 ps bT xs xm1 lws).
Proof.
move=> sx; rewrite /sm_backward_sampling sx; cbv zeta.
apply/always_bind; apply: always_true => -[B l]; apply/always_bind; apply: always_true => B1 /=.
by move=> B0.
Qed.

Lemma als_two_keeps key (b0 b1 : 'I_n) y0 y1 u0 u1 s0 s1 q :
  always (fun r => size r.1.1 = 3%N)
    (als_sweep ld scale val0 valt g0 ga gb rs mv key b0 [:: b1] y0 [:: y1] u0 [:: u1] s0 [:: s1] [:: q] true).
Proof.
rewrite /als_sweep /= /als_forward; cbv zeta; apply/always_bind/always_bind; apply: always_true => A0 /=.
by rewrite /sm_finish; apply/always_bind; apply: always_imp (bsamp_three _ _ _ _ _ _ _ _) => // -[a c] [].
Qed.

Lemma als_two_density key q s u y :
  ~ keeps_density (y 0%N) (later 1 y) (smooth_density ld scale val0 valt g0 ga gb q s u y 2)
    (fun b0 bs => drop_weights (als_sweep ld scale val0 valt g0 ga gb rs mv key b0 bs (y 0%N) (later 1 y)
       (u 0%N) (later 1 u) (s 0%N) (later 1 s) (later 1 q) true)).
Proof.
move=> /(_ (fun xs _ => (size xs != 3%N)%:R)); rewrite size_mkseq /idx_sum.
rewrite big1 => [|b0 _]; last first.
  rewrite big1 // => bs _.
  rewrite E_bind (@eq_E_always _ _ _ (fun=> 0)) ?E0 ?mulr0 //.
  have := size_tuple bs; move: (tval bs) => [|b1 [|? ?]] // _.
  by apply: always_imp (als_two_keeps key b0 b1 (y 0%N) (y 1%N) (u 0%N) (u 1%N) (s 0%N) (s 1%N) (q 1%N)) => -[[a c] l] /= ->.
have pos b0 (bs : 1.-tuple 'I_n) : 0 < smooth_density ld scale val0 valt g0 ga gb q s u y 2 b0 bs
   * (size (y 0%N b0 :: pick (later 1 y) bs) != 3%N)%:R.
  have := size_tuple bs; move: (tval bs) => [|b1 [|? ?]] // _.
  by rewrite /= mulr1; exact: expR_gt0.
move=> /esym /eqP; apply/negP; rewrite lt0r_neq0 // (bigD1 ord0) //= ltr_paddr //.
  by do 2! (apply: sumr_ge0 => ? _); apply: ltW; exact: pos.
rewrite (bigD1 [tuple ord0]) //= ltr_paddr //; last exact: (pos ord0 [tuple ord0]).
by apply: sumr_ge0 => ? _; apply: ltW; exact: pos.
Qed.
End Two.
