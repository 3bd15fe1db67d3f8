(** * NewtonIntegral: an integral over the real line, used only to show that the hypotheses about
    integrals are met.  Nothing of /repo is modelled here. *)
From Coq Require Import Reals Lra Lia Epsilon Classical.
Set Implicit Arguments.
Unset Strict Implicit.
Local Open Scope R_scope.

Definition at_plus (F : R -> R) (l : R) : Prop :=
  forall eps, 0 < eps -> exists M, forall x, M <= x -> Rabs (F x - l) < eps.
Definition at_minus (F : R -> R) (l : R) : Prop :=
  forall eps, 0 < eps -> exists M, forall x, x <= M -> Rabs (F x - l) < eps.

(** [L] is the increase of a primitive of [f] from minus to plus infinity. *)
Definition newton (f : R -> R) (L : R) : Prop :=
  exists F a b, (forall x, derivable_pt_lim F x (f x)) /\ at_minus F a /\ at_plus F b /\ L = b - a.

(** The integral; 0 where there is none. *)
Definition nint (f : R -> R) : R :=
  epsilon (inhabits 0) (fun L => newton f L \/ (~ (exists L', newton f L') /\ L = 0)).

Lemma nint_spec f : newton f (nint f) \/ (~ (exists L', newton f L') /\ nint f = 0).
Proof.
  unfold nint; apply epsilon_spec.
  destruct (classic (exists L, newton f L)) as [[L H]|H]; [exists L; auto|exists 0; auto].
Qed.

Lemma primitive_unique F G f : (forall x, derivable_pt_lim F x (f x)) -> (forall x, derivable_pt_lim G x (f x)) ->
  forall x y, F y - F x = G y - G x.
Proof.
  intros HF HG.
  assert (K : forall x y, x < y -> F y - F x = G y - G x).
  { intros x y xy.
    destruct (MVT_cor2 (fun z => F z - G z) (fun z => f z - f z) x y xy) as [c [e _]].
    - intros z _; apply (derivable_pt_lim_minus F G z); auto.
    - replace ((f c - f c) * (y - x)) with 0 in e by ring; lra. }
  intros x y; destruct (Rtotal_order x y) as [h|[->|h]]; [auto|lra|].
  specialize (K y x h); lra.
Qed.

Lemma at_plus_unique F a b : at_plus F a -> at_plus F b -> a = b.
Proof.
  intros Ha Hb; destruct (Req_dec a b) as [|ne]; [auto|exfalso].
  assert (0 < Rabs (a - b) / 2) as e by (assert (0 < Rabs (a - b)) by (apply Rabs_pos_lt; lra); lra).
  destruct (Ha _ e) as [M HM]; destruct (Hb _ e) as [M' HM'].
  specialize (HM (Rmax M M') (Rmax_l _ _)); specialize (HM' (Rmax M M') (Rmax_r _ _)).
  replace (a - b) with (- (F (Rmax M M') - a) + (F (Rmax M M') - b)) in * by ring.
  pose proof (Rabs_triang (- (F (Rmax M M') - a)) (F (Rmax M M') - b)) as t.
  rewrite Rabs_Ropp in t; lra.
Qed.

Lemma at_minus_flip F a : at_minus F a <-> at_plus (fun x => F (- x)) a.
Proof.
  split; intros H eps e; destruct (H eps e) as [M HM]; exists (- M); intros x Hx.
  - apply HM; lra.
  - replace x with (- - x) by ring; apply HM; lra.
Qed.

Lemma at_plus_add F a c : at_plus F a -> at_plus (fun x => F x + c) (a + c).
Proof.
  intros H eps e; destruct (H eps e) as [M HM]; exists M; intros x Hx.
  replace (F x + c - (a + c)) with (F x - a) by ring; auto.
Qed.

Lemma at_plus_ext F G a : (forall x, F x = G x) -> at_plus F a -> at_plus G a.
Proof. intros E H eps e; destruct (H eps e) as [M HM]; exists M; intros x Hx; rewrite <- E; auto. Qed.

Lemma at_plus_scale F a c : at_plus F a -> at_plus (fun x => c * F x) (c * a).
Proof.
  intros H eps e; destruct (Req_dec c 0) as [->|c0].
  - exists 0; intros x _; replace (0 * F x - 0 * a) with 0 by ring; rewrite Rabs_R0; auto.
  - assert (0 < Rabs c) as ac by (apply Rabs_pos_lt; auto).
    destruct (H (eps / Rabs c)) as [M HM]; [apply Rdiv_lt_0_compat; auto|].
    exists M; intros x Hx; replace (c * F x - c * a) with (c * (F x - a)) by ring.
    rewrite Rabs_mult; specialize (HM x Hx).
    apply (Rmult_lt_compat_l (Rabs c)) in HM; auto.
    replace (Rabs c * (eps / Rabs c)) with eps in HM by (field; lra); auto.
Qed.

Lemma at_plus_shift F a c : at_plus F a -> at_plus (fun x => F (x + c)) a.
Proof. intros H eps e; destruct (H eps e) as [M HM]; exists (M - c); intros x Hx; apply HM; lra. Qed.

Lemma newton_unique f L L' : newton f L -> newton f L' -> L = L'.
Proof.
  intros [F [a [b [HF [Ha [Hb ->]]]]]] [G [a' [b' [HG [Ha' [Hb' ->]]]]]].
  pose proof (primitive_unique HF HG) as E.
  set (c := F 0 - G 0).
  assert (Ec : forall x, G x + c = F x) by (intros x; specialize (E 0 x); unfold c; lra).
  assert (b = b' + c) by (apply (at_plus_unique Hb); apply (@at_plus_ext (fun x => G x + c)); [auto|apply at_plus_add; auto]).
  assert (a = a' + c).
  { apply at_minus_flip in Ha; apply at_minus_flip in Ha'.
    apply (at_plus_unique Ha); apply (@at_plus_ext (fun x => G (- x) + c)); [intros; auto|].
    apply (at_plus_add (F := fun x => G (- x))); auto. }
  lra.
Qed.

Lemma nintE f L : newton f L -> nint f = L.
Proof.
  intros H; destruct (nint_spec f) as [h|[h _]]; [apply (newton_unique h H)|].
  exfalso; apply h; exists L; auto.
Qed.

Lemma nint_none f : ~ (exists L, newton f L) -> nint f = 0.
Proof. intros H; destruct (nint_spec f) as [h|[_ h]]; [exfalso; apply H; eauto|auto]. Qed.

Lemma newton_ext f g L : (forall x, f x = g x) -> newton f L -> newton g L.
Proof.
  intros E [F [a [b [HF H]]]]; exists F, a, b; split; auto.
  intros x; rewrite <- E; auto.
Qed.

Lemma nint_ext f g : (forall x, f x = g x) -> nint f = nint g.
Proof.
  intros E; destruct (classic (exists L, newton f L)) as [[L H]|H].
  - rewrite (nintE H); symmetry; apply nintE; apply (newton_ext E H).
  - rewrite (nint_none H); symmetry; apply nint_none; intros [L h].
    apply H; exists L; apply (@newton_ext g f); auto.
Qed.

Lemma newton_scale f c L : newton f L -> newton (fun x => c * f x) (c * L).
Proof.
  intros [F [a [b [HF [Ha [Hb ->]]]]]]; exists (fun x => c * F x), (c * a), (c * b).
  split; [|split; [|split; [|ring]]].
  - intros x; apply (derivable_pt_lim_scal F c x (f x)); auto.
  - apply at_minus_flip; apply (at_plus_scale (F := fun x => F (- x))); apply at_minus_flip; auto.
  - apply at_plus_scale; auto.
Qed.

Lemma nint_scale f c : nint (fun x => c * f x) = c * nint f.
Proof.
  destruct (classic (exists L, newton f L)) as [[L H]|H].
  - rewrite (nintE H); apply nintE; apply newton_scale; auto.
  - rewrite (nint_none H), Rmult_0_r; destruct (Req_dec c 0) as [->|c0].
    + rewrite (@nint_ext _ (fun x => 0 * 0)) by (intros; ring).
      assert (Z : newton (fun x => 0) 0).
      { exists (fun _ => 0), 0, 0; split; [intros; apply derivable_pt_lim_const|].
        split; [|split; [|ring]]; intros eps e; exists 0; intros x _;
          replace (0 - 0) with 0 by ring; rewrite Rabs_R0; auto. }
      rewrite (@nint_ext _ (fun x => 0)) by (intros; ring); apply (nintE Z).
    + apply nint_none; intros [L h]; apply H; exists (/ c * L).
      apply (@newton_ext (fun x => / c * (c * f x))); [intros; field; auto|].
      apply (@newton_scale (fun x => c * f x)); auto.
Qed.

Lemma newton_shift f c L : newton f L -> newton (fun x => f (x + c)) L.
Proof.
  intros [F [a [b [HF [Ha [Hb ->]]]]]]; exists (fun x => F (x + c)), a, b.
  split; [|split; [|split; [|ring]]].
  - intros x.
    assert (D : derivable_pt_lim (fun y => y + c) x (1 + 0)).
    { apply (derivable_pt_lim_plus id (fun _ => c)); [apply derivable_pt_lim_id|apply derivable_pt_lim_const]. }
    pose proof (derivable_pt_lim_comp (fun y => y + c) F x (1 + 0) (f (x + c)) D (HF (x + c))) as K.
    replace (f (x + c)) with (f (x + c) * (1 + 0)) by ring; exact K.
  - apply at_minus_flip in Ha; apply at_minus_flip.
    apply (at_plus_ext (F := fun x => F (- (x + - c)))); [intros; f_equal; ring|].
    apply (at_plus_shift (F := fun x => F (- x))); auto.
  - apply at_plus_shift; auto.
Qed.

Lemma nint_shift f c : nint (fun x => f (x - c)) = nint f.
Proof.
  destruct (classic (exists L, newton f L)) as [[L H]|H].
  - rewrite (nintE H); apply nintE; apply (newton_shift (- c) H).
  - rewrite (nint_none H); apply nint_none; intros [L h]; apply H; exists L.
    apply (@newton_ext (fun x => f (x + c - c))); [intros; f_equal; ring|].
    apply (@newton_shift (fun x => f (x - c)) c); auto.
Qed.

Lemma incr F f : (forall x, derivable_pt_lim F x (f x)) -> (forall x, 0 <= f x) -> forall x y, x <= y -> F x <= F y.
Proof.
  intros HF f0 x y xy; destruct (Rle_lt_or_eq_dec x y xy) as [h| ->]; [|lra].
  destruct (MVT_cor2 F f x y h) as [c [e _]]; [auto|].
  specialize (f0 c); assert (0 <= f c * (y - x)) by (apply Rmult_le_pos; lra); lra.
Qed.

Lemma incr_strict F f : (forall x, derivable_pt_lim F x (f x)) -> (forall x, 0 < f x) -> forall x y, x < y -> F x < F y.
Proof.
  intros HF f0 x y h.
  destruct (MVT_cor2 F f x y h) as [c [e _]]; [auto|].
  specialize (f0 c); assert (0 < f c * (y - x)) by (apply Rmult_lt_0_compat; lra); lra.
Qed.

Lemma at_plus_above F b : (forall x y, x <= y -> F x <= F y) -> at_plus F b -> forall x, F x <= b.
Proof.
  intros m H x; destruct (Rle_dec (F x) b) as [|n]; [auto|exfalso].
  destruct (H ((F x - b))) as [M HM]; [lra|].
  specialize (HM (Rmax x M) (Rmax_r _ _)); specialize (m x (Rmax x M) (Rmax_l _ _)).
  rewrite Rabs_right in HM; lra.
Qed.

Lemma at_minus_below F a : (forall x y, x <= y -> F x <= F y) -> at_minus F a -> forall x, a <= F x.
Proof.
  intros m H x; apply at_minus_flip in H.
  destruct (Rle_dec a (F x)) as [|n]; [auto|exfalso].
  destruct (H (a - F x)) as [M HM]; [lra|].
  specialize (HM (Rmax (- x) M) (Rmax_r _ _)); specialize (m (- Rmax (- x) M) x).
  pose proof (Rmax_l (- x) M); rewrite Rabs_left in HM; [|]; assert (F (- Rmax (- x) M) <= F x) by (apply m; lra); lra.
Qed.

Lemma nint_ge0 f : (forall x, 0 <= f x) -> 0 <= nint f.
Proof.
  intros f0; destruct (classic (exists L, newton f L)) as [[L H]|H]; [|rewrite (nint_none H); lra].
  rewrite (nintE H); destruct H as [F [a [b [HF [Ha [Hb ->]]]]]].
  pose proof (incr HF f0) as m.
  pose proof (at_plus_above m Hb 0); pose proof (at_minus_below m Ha 0); lra.
Qed.

Lemma newton_gt0 f L : newton f L -> (forall x, 0 < f x) -> 0 < L.
Proof.
  intros [F [a [b [HF [Ha [Hb ->]]]]]] f0.
  pose proof (incr HF (fun x => Rlt_le _ _ (f0 x))) as m.
  pose proof (at_plus_above m Hb 1); pose proof (at_minus_below m Ha 0).
  pose proof (incr_strict HF f0 Rlt_0_1); lra.
Qed.

(** ** Continuous functions have primitives *)
Lemma prim_on f (N : R) : 0 <= N -> (forall x, continuity_pt f x) ->
  exists F, F 0 = 0 /\ forall x, - N <= x <= N -> derivable_pt_lim F x (f x).
Proof.
  intros N0 C.
  assert (h : - N <= N) by lra.
  pose (C0 := fun x (_ : - N <= x <= N) => C x).
  exists (fun x => primitive h (FTC_P1 h C0) x - primitive h (FTC_P1 h C0) 0).
  split; [ring|]; intros x Hx.
  replace (f x) with (f x - 0) by ring.
  apply (derivable_pt_lim_minus (primitive h (FTC_P1 h C0)) (fun _ => _)).
  - apply RiemannInt_P28; auto.
  - apply derivable_pt_lim_const.
Qed.

Lemma zero_derivative G N : (forall x, - N <= x <= N -> derivable_pt_lim G x 0) -> forall x, - N <= x <= N -> 0 <= N -> G x = G 0.
Proof.
  intros H x Hx N0; destruct (Rtotal_order x 0) as [h|[->|h]]; [|auto|].
  - destruct (MVT_cor2 G (fun _ => 0) x 0 h) as [c [e _]]; [intros; apply H; lra|lra].
  - destruct (MVT_cor2 G (fun _ => 0) 0 x h) as [c [e _]]; [intros; apply H; lra|lra].
Qed.

Lemma primitive_exists f : (forall x, continuity_pt f x) -> exists F, forall x, derivable_pt_lim F x (f x).
Proof.
  intros C.
  pose (ok N F := F 0 = 0 /\ forall x, - N <= x <= N -> derivable_pt_lim F x (f x)).
  pose (Fn := fun N => epsilon (inhabits (fun _ : R => 0)) (ok N)).
  assert (Fok : forall N, 0 <= N -> ok N (Fn N)).
  { intros N N0; apply epsilon_spec; destruct (prim_on N0 C) as [F HF]; exists F; auto. }
  assert (agree : forall N M x, 0 <= N -> N <= M -> - N <= x <= N -> Fn N x = Fn M x).
  { intros N M x N0 NM Hx.
    destruct (Fok N N0) as [z1 d1]; destruct (Fok M ltac:(lra)) as [z2 d2].
    pose proof (@zero_derivative (fun x => Fn N x - Fn M x) N) as Z.
    enough (Fn N x - Fn M x = Fn N 0 - Fn M 0) by lra.
    apply Z; [|auto|auto].
    intros y Hy; replace 0 with (f y - f y) by ring.
    apply (derivable_pt_lim_minus (Fn N) (Fn M)); [apply d1|apply d2]; lra. }
  exists (fun x => Fn (Rabs x) x); intros x eps e.
  set (M := Rabs x + 1); assert (M0 : 0 <= M) by (unfold M; pose proof (Rabs_pos x); lra).
  destruct (Fok M M0) as [_ dM].
  assert (Hx : - M <= x <= M) by (unfold M, Rabs; destruct (Rcase_abs x); lra).
  destruct (dM x Hx eps e) as [dl Hd].
  assert (p : 0 < Rmin dl 1) by (apply Rmin_pos; [apply cond_pos|lra]).
  exists (mkposreal _ p); intros h h0 hd; simpl in hd.
  assert (E : forall y, Rabs y <= M -> Fn (Rabs y) y = Fn M y).
  { intros y Hy; apply agree; auto; [apply Rabs_pos|unfold Rabs; destruct (Rcase_abs y); lra]. }
  rewrite (E x) by (unfold M; lra).
  rewrite (E (x + h)).
  - apply Hd; auto; apply (Rlt_le_trans _ _ _ hd); apply Rmin_l.
  - pose proof (Rabs_triang x h); pose proof (Rmin_r dl 1); unfold M; lra.
Qed.

(** ** Bell curves *)
Lemma mono_limit F B : (forall x y, x <= y -> F x <= F y) -> (forall x, F x <= B) -> exists b, at_plus F b.
Proof.
  intros m HB.
  destruct (completeness (fun y => exists x, y = F x)) as [b [ub lub]].
  - exists B; intros y [x ->]; auto.
  - exists (F 0), 0; auto.
  - exists b; intros eps e.
    destruct (classic (exists x, b - eps < F x)) as [[x Hx]|N].
    + exists x; intros y Hy; assert (F y <= b) by (apply ub; exists y; auto).
      specialize (m x y Hy); apply Rabs_def1; lra.
    + exfalso; assert (b <= b - eps); [|lra].
      apply lub; intros y [x ->]; destruct (Rle_dec (F x) (b - eps)); [auto|].
      exfalso; apply N; exists x; lra.
Qed.

(** Positive, continuous and below [c exp (- x)] on the right. *)
Lemma right_limit F f c : (forall x, derivable_pt_lim F x (f x)) -> (forall x, 0 < f x) ->
  (forall x, f x <= c * exp (- x)) -> exists b, at_plus F b.
Proof.
  intros HF f0 fc.
  assert (De : forall x, derivable_pt_lim (fun y => - c * exp (- y)) x (c * exp (- x))).
  { intros x.
    replace (c * exp (- x)) with (- c * (exp (- x) * - (1))) by ring.
    apply (derivable_pt_lim_scal (fun y => exp (- y))).
    apply (derivable_pt_lim_comp (fun y => - y) exp x (- (1)) (exp (- x))).
    - apply (derivable_pt_lim_opp id x 1); apply derivable_pt_lim_id.
    - apply derivable_pt_lim_exp. }
  apply (@mono_limit F (F 0 + c)); [apply (incr HF); intros; left; auto|].
  assert (c0 : 0 < c).
  { specialize (fc 0); specialize (f0 0); rewrite Ropp_0, exp_0 in fc; lra. }
  intros x; destruct (Rle_dec x 0) as [h|h].
  - pose proof (incr HF (fun y => Rlt_le _ _ (f0 y)) h); lra.
  - assert (K : F 0 - - c * exp (- 0) >= F x - - c * exp (- x)).
    { assert (D : forall y, derivable_pt_lim (fun y => - c * exp (- y) - F y) y (c * exp (- y) - f y)).
      { intros y; apply (derivable_pt_lim_minus (fun y => - c * exp (- y)) F); auto. }
      pose proof (incr D) as I; assert (- c * exp (- 0) - F 0 <= - c * exp (- x) - F x).
      { apply I; [intros y; specialize (fc y); lra|lra]. }
      lra. }
    rewrite Ropp_0, exp_0 in K; pose proof (exp_pos (- x)).
    assert (0 < c * exp (- x)) by (apply Rmult_lt_0_compat; auto); lra.
Qed.

Lemma newton_exists f c : (forall x, continuity_pt f x) -> (forall x, 0 < f x) ->
  (forall x, f x <= c * exp (- x)) -> (forall x, f x <= c * exp x) -> exists2 L, newton f L & 0 < L.
Proof.
  intros C f0 fr fl; destruct (primitive_exists C) as [F HF].
  destruct (right_limit HF f0 fr) as [b Hb].
  assert (HG : forall x, derivable_pt_lim (fun y => - F (- y)) x (f (- x))).
  { intros x; replace (f (- x)) with (- (f (- x) * - (1))) by ring.
    apply (derivable_pt_lim_opp (fun y => F (- y))).
    apply (derivable_pt_lim_comp (fun y => - y) F x (- (1)) (f (- x))); [|auto].
    apply (derivable_pt_lim_opp id x 1); apply derivable_pt_lim_id. }
  destruct (right_limit HG (fun x => f0 (- x)) (fun x => fl (- x))) as [a Ha].
  assert (N : newton f (b - - a)).
  { exists F, (- a), b; split; auto; split; [|auto].
    apply at_minus_flip; apply (at_plus_ext (F := fun x => -1 * - F (- x))); [intros; ring|].
    replace (- a) with (-1 * a) by ring; apply at_plus_scale; auto. }
  exists (b - - a); auto; apply (newton_gt0 N f0).
Qed.

Lemma bell_exists (v m : R) : 0 < v -> exists2 L, newton (fun x => exp (- ((x - m) * (x - m) / v / 2))) L & 0 < L.
Proof.
  intros v0; apply (@newton_exists _ (exp (Rabs m + v / 2))).
  - intros x; apply derivable_continuous_pt; exists (exp (- ((x - m) * (x - m) / v / 2)) * (- ((x - m) / v))).
    apply (derivable_pt_lim_comp (fun x => - ((x - m) * (x - m) / v / 2)) exp); [|apply derivable_pt_lim_exp].
    assert (D : derivable_pt_lim (fun y => y - m) x 1).
    { replace 1 with (1 - 0) by ring.
      apply (derivable_pt_lim_minus id (fun _ => m)); [apply derivable_pt_lim_id|apply derivable_pt_lim_const]. }
    pose proof (derivable_pt_lim_mult (fun y => y - m) (fun y => y - m) x 1 1 D D) as D2.
    pose proof (derivable_pt_lim_scal _ (- (/ v / 2)) x _ D2) as D3.
    replace (- ((x - m) / v)) with (- (/ v / 2) * (1 * (x - m) + (x - m) * 1)) by (field; lra).
    apply (derivable_pt_lim_ext _ (fun x => - ((x - m) * (x - m) / v / 2)) x _) in D3; [exact D3|].
    intros y; unfold mult_real_fct, mult_fct; field; lra.
  - intros x; apply exp_pos.
  - intros x; rewrite <- exp_plus; destruct (Req_dec (- ((x - m) * (x - m) / v / 2)) (Rabs m + v / 2 + - x)) as [e|ne].
    + rewrite e; lra.
    + left; apply exp_increasing.
      enough (- ((x - m) * (x - m) / v / 2) <= Rabs m + v / 2 + - x) by lra.
      assert (0 <= (x - m - v) * (x - m - v) / v / 2).
      { apply Rmult_le_pos; [|lra]; apply Rmult_le_pos; [apply Rle_0_sqr|left; apply Rinv_0_lt_compat; auto]. }
      replace ((x - m - v) * (x - m - v) / v / 2) with ((x - m) * (x - m) / v / 2 - (x - m) + v / 2) in H by (field; lra).
      pose proof (Rle_abs (- m)); pose proof (Rle_abs m); rewrite Rabs_Ropp in *; lra.
  - intros x; rewrite <- exp_plus; destruct (Req_dec (- ((x - m) * (x - m) / v / 2)) (Rabs m + v / 2 + x)) as [e|ne].
    + rewrite e; lra.
    + left; apply exp_increasing.
      enough (- ((x - m) * (x - m) / v / 2) <= Rabs m + v / 2 + x) by lra.
      assert (0 <= (x - m + v) * (x - m + v) / v / 2).
      { apply Rmult_le_pos; [|lra]; apply Rmult_le_pos; [apply Rle_0_sqr|left; apply Rinv_0_lt_compat; auto]. }
      replace ((x - m + v) * (x - m + v) / v / 2) with ((x - m) * (x - m) / v / 2 + (x - m) + v / 2) in H by (field; lra).
      pose proof (Rle_abs (- m)); pose proof (Rle_abs m); rewrite Rabs_Ropp in *; lra.
Qed.
