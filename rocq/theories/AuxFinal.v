(** * AuxFinal: final form of the facts stated in PropsAux, and examples. *)
From Coq Require Import Reals Lra.
From mathcomp Require Import all_ssreflect all_algebra.
From Verif Require Import RInst Prog ProgTheory Resampling Spec ResamplingProofs MoveProofs.
From Verif Require Import Csmc CsmcInvariance CsmcProofs KeyProofs CsmcSpecs AuxCsmc SweepTheory AuxProofs AuxStruct.

Set Implicit Arguments.
Unset Strict Implicit.
Unset Printing Implicit Defensive.
Import GRing.Theory Num.Theory Order.TTheory.
Local Open Scope ring_scope.

Section Aux.
Variables (X : finZmodType) (n' : nat) (Q : Type).
Local Notation n := n'.+1.
Local Notation pop := (pop X n').
Variables (setting : Type) (noise ld : setting -> X -> R) (scale : setting -> X -> X).
Variable logH : setting -> pop -> X -> X -> R.
Variables (rs : resampler n).
Variables (G0 : X -> R) (Gt : X -> X -> Q -> R) (g0 : X -> X) (gt : X -> X -> Q -> X).
Hypothesis noiseP : forall s, prob_vec (noise s).
Hypothesis rs_good : good_resampler rs.

Lemma force_bound c key w (g : 'I_n -> R) : prob_vec w -> (forall k, `|g k| <= c) ->
  `|\sum_k w k * E (force_move key w k) (fun r => g r.1) - \sum_k w k * g k| <= force_eps n c.
Proof. by move=> pw gc; exact: force_error. Qed.

Lemma rw_inv mv key s0 ss qs backward :
  good_mover mv -> (forall s z, noise s (- z) = noise s z) -> size ss = size qs ->
  leaves_invariant (size qs) (path_target G0 Gt qs) (fun x0 xs b0 bs =>
    drop_weights (rw_kernel noise rs mv G0 Gt xpredT key x0 xs b0 bs s0 ss qs backward)).
Proof. by move=> gm ev sz; apply: (proj1 (rw_good mv G0 Gt noiseP rs_good key s0 backward ev (fun=> isT) sz)). Qed.

Lemma rw_near c key s0 ss qs backward :
  (forall s z, noise s (- z) = noise s z) -> size ss = size qs ->
  nearly_invariant (size qs) (path_target G0 Gt qs) (fun x0 xs b0 bs =>
    drop_weights (rw_kernel noise rs (@force_move _) G0 Gt xpredT key x0 xs b0 bs s0 ss qs backward))
    c (force_eps n c).
Proof.
move=> ev sz; apply: (proj2 (rw_good (@force_move _) G0 Gt noiseP rs_good key s0 backward ev (fun=> isT) sz)) => // *.
exact: force_bound.
Qed.

Lemma l_inv mv key s0 ss qs backward :
  (forall s, exists S : pop -> R, forall (x : pop) b phi,
     \sum_u noise s (u - (x b + phi)) * \prod_(i | i != b) noise s (x i - u)
     = S x * exp (logH s x phi (x b))) ->
  good_mover mv -> size ss = size qs ->
  leaves_invariant (size qs) (path_target G0 Gt qs) (fun x0 xs b0 bs =>
    drop_weights (l_kernel noise scale logH rs mv G0 Gt g0 gt key x0 xs b0 bs s0 ss qs backward)).
Proof. by move=> h gm sz; apply: (proj1 (l_good scale mv G0 Gt g0 gt noiseP rs_good key s0 backward h sz)). Qed.

Lemma l_near c key s0 ss qs backward :
  (forall s, exists S : pop -> R, forall (x : pop) b phi,
     \sum_u noise s (u - (x b + phi)) * \prod_(i | i != b) noise s (x i - u)
     = S x * exp (logH s x phi (x b))) ->
  size ss = size qs ->
  nearly_invariant (size qs) (path_target G0 Gt qs) (fun x0 xs b0 bs =>
    drop_weights (l_kernel noise scale logH rs (@force_move _) G0 Gt g0 gt key x0 xs b0 bs s0 ss qs backward))
    c (force_eps n c).
Proof.
move=> h sz; apply: (proj2 (l_good scale (@force_move _) G0 Gt g0 gt noiseP rs_good key s0 backward h sz)) => *.
exact: force_bound.
Qed.

Lemma al_inv mv key s0 ss qs backward :
  (forall s, exists c, c != 0 /\ forall z, exp (ld s z) = c * noise s z) ->
  good_mover mv -> size ss = size qs ->
  leaves_invariant (size qs) (path_target G0 Gt qs) (fun x0 xs b0 bs =>
    drop_weights (al_kernel noise ld scale rs mv G0 Gt g0 gt key x0 xs b0 bs s0 ss qs backward)).
Proof. by move=> h gm sz; apply: (proj1 (al_good scale mv G0 Gt g0 gt noiseP rs_good h key s0 backward sz)). Qed.

Lemma al_near c key s0 ss qs backward :
  (forall s, exists c, c != 0 /\ forall z, exp (ld s z) = c * noise s z) ->
  size ss = size qs ->
  nearly_invariant (size qs) (path_target G0 Gt qs) (fun x0 xs b0 bs =>
    drop_weights (al_kernel noise ld scale rs (@force_move _) G0 Gt g0 gt key x0 xs b0 bs s0 ss qs backward))
    c (force_eps n c).
Proof.
move=> h sz; apply: (proj2 (al_good scale (@force_move _) G0 Gt g0 gt noiseP rs_good h key s0 backward sz)) => *.
exact: force_bound.
Qed.

End Aux.

(** *** Examples: laws meeting the hypotheses, on any finite group *)
Section Example.
Variables (X : finZmodType) (n' : nat).
Local Notation pop := (pop X n').
Variables (setting : Type) (ld : setting -> X -> R).

Definition ex_noise (s : setting) (z : X) : R := exp (ld s z) / \sum_z exp (ld s z).

Lemma ex_total s : 0 < \sum_z exp (ld s z).
Proof.
apply: lt_le_trans (_ : exp (ld s 0) <= _); first exact: expR_gt0.
rewrite (bigD1 0) //= ler_addl sumr_ge0 // => z _; exact: ltW (expR_gt0 _).
Qed.

Lemma ex_noise_gt0 s z : 0 < ex_noise s z.
Proof. by rewrite divr_gt0 ?ex_total ?expR_gt0. Qed.

Lemma ex_noise_prob s : prob_vec (ex_noise s).
Proof.
split=> [z|]; first exact: ltW (ex_noise_gt0 s z).
by rewrite -mulr_suml divff // lt0r_neq0 ?ex_total.
Qed.

Lemma ex_noise_even s : (forall z, ld s (- z) = ld s z) -> forall z, ex_noise s (- z) = ex_noise s z.
Proof. by move=> ev z; rewrite /ex_noise ev. Qed.

Lemma ex_noise_ld s : exists c, c != 0 /\ forall z, exp (ld s z) = c * ex_noise s z.
Proof.
exists (\sum_z exp (ld s z)); split=> [|z]; first by rewrite lt0r_neq0 ?ex_total.
by rewrite /ex_noise mulrCA divff ?mulr1 // lt0r_neq0 ?ex_total.
Qed.

Definition ex_logH (s : setting) (x : pop) (phi y : X) : R :=
  ln (\sum_u ex_noise s (u - (y + phi)) / ex_noise s (y - u) * \prod_i ex_noise s (x i - u)).

Lemma ex_logH_ok s : exists S : pop -> R, forall (x : pop) b phi,
     \sum_u ex_noise s (u - (x b + phi)) * \prod_(i | i != b) ex_noise s (x i - u)
     = S x * exp (ex_logH s x phi (x b)).
Proof.
exists (fun=> 1) => x b phi; rewrite mul1r /ex_logH exp_ln.
  apply: eq_bigr => u _; rewrite [in RHS](bigD1 b) //= -mulrA; congr (_ * _).
  by rewrite mulKf // lt0r_neq0 ?ex_noise_gt0.
have pos u : 0 < ex_noise s (u - (x b + phi)) / ex_noise s (x b - u) * \prod_i ex_noise s (x i - u).
  apply: mulr_gt0; first by apply: divr_gt0; exact: ex_noise_gt0.
  by apply: prodr_gt0 => i _; exact: ex_noise_gt0.
apply/RltE; apply: (lt_le_trans (pos 0)).
by rewrite [leRHS](bigD1 0) //= ler_addl sumr_ge0 // => u _; exact: ltW.
Qed.
End Example.

(** *** Uniform statement of the structural facts *)
Section Struct.
Variables (X : finZmodType) (n' : nat) (Q : Type).
Local Notation n := n'.+1.
Local Notation pop := (pop X n').
Variables (setting : Type) (noise ld : setting -> X -> R) (scale : setting -> X -> X).
Variable logH : setting -> pop -> X -> X -> R.
Variables (rs : resampler n) (mv : mover n).
Variables (G0 : X -> R) (Gt : X -> X -> Q -> R) (g0 : X -> X) (gt : X -> X -> Q -> X).
Variables (key : key) (x0 : X) (xs : seq X) (b0 : 'I_n) (bs : seq 'I_n) (s0 : setting) (ss : seq setting) (qs : seq Q).
Hypothesis kp : forall key w i j, always (fun A : {ffun 'I_n -> 'I_n} => A j = i) (rs key w i j true).
Hypotheses (s1 : size ss = size qs) (s2 : size bs = size qs) (s3 : size xs = size qs).

Lemma three_carry :
  [/\ always (carries x0 xs b0 bs) (rw_forward noise rs G0 Gt key x0 xs b0 bs s0 ss qs),
      always (carries x0 xs b0 bs) (l_forward noise scale logH rs G0 Gt g0 gt key x0 xs b0 bs s0 ss qs)
    & always (fun r => carries x0 xs b0 bs r.1) (al_forward noise ld scale rs G0 Gt g0 gt key x0 xs b0 bs s0 ss qs)].
Proof.
split; [exact: rw_keeps|exact: l_keeps|].
apply: (@always_imp _ (fun r => keeps_ref x0 xs b0 bs r.1 /\ size r.2 = size qs)) => [o []//|].
exact: al_keeps.
Qed.

Lemma three_shape finite backward :
  [/\ always (keeps_shape x0 xs b0 bs) (rw_kernel noise rs mv G0 Gt finite key x0 xs b0 bs s0 ss qs backward),
      always (keeps_shape x0 xs b0 bs) (l_kernel noise scale logH rs mv G0 Gt g0 gt key x0 xs b0 bs s0 ss qs backward)
    & always (keeps_shape x0 xs b0 bs) (al_kernel noise ld scale rs mv G0 Gt g0 gt key x0 xs b0 bs s0 ss qs backward)].
Proof. by split; [exact: rw_shaped|exact: l_shaped|exact: al_shaped]. Qed.

End Struct.

Lemma rw_finite (X : finZmodType) (n' : nat) (Q setting : Type) (noise : setting -> X -> R)
    (rs : resampler n'.+1) (mv : mover n'.+1) G0 (Gt : X -> X -> Q -> R) (finite : X -> bool)
    key x0 xs b0 bs s0 ss qs backward :
  all finite (x0 :: xs) ->
  always (fun r => all finite r.1.1) (rw_kernel noise rs mv G0 Gt finite key x0 xs b0 bs s0 ss qs backward).
Proof.
move=> fx; apply/always_bind; apply: always_true => o; exact: guard_finite.
Qed.

Lemma uses_three (X : finZmodType) (n' : nat) (Q setting : Type) (noise ld : setting -> X -> R)
    (scale : setting -> X -> X) (logH : setting -> pop X n' -> X -> X -> R)
    (rs : resampler n'.+1) (mv : mover n'.+1) G0 (Gt : X -> X -> Q -> R) (g0 : X -> X) (gt : X -> X -> Q -> X)
    (finite : X -> bool) (key : key) x0 xs b0 bs s0 ss qs (backward : bool) :
  (forall key w i j b, uses [:: key] (rs key w i j b)) ->
  (forall key w k, uses [:: key] (mv key w k)) ->
  [/\ uses [:: key] (rw_kernel noise rs mv G0 Gt finite key x0 xs b0 bs s0 ss qs backward),
      uses [:: key] (l_kernel noise scale logH rs mv G0 Gt g0 gt key x0 xs b0 bs s0 ss qs backward)
    & uses [:: key] (al_kernel noise ld scale rs mv G0 Gt g0 gt key x0 xs b0 bs s0 ss qs backward)].
Proof. by move=> h1 h2; split; [exact: uses_rw|exact: uses_l|exact: uses_al]. Qed.
