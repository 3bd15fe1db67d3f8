(** * ThreeSteps: al_csmc_s.py with T = 3 and backward sampling does not leave a flat target invariant (C46, C28). *)
From Coq Require Import Reals Lra FunctionalExtensionality.
From mathcomp Require Import all_ssreflect all_algebra.
From Verif Require Import RInst Prog ProgTheory Resampling Spec ResamplingProofs MoveProofs Csmc CsmcInvariance CsmcSpecs SweepTheory.
From Verif Require Import AuxCsmc AuxProofs TpProofs AuxFinal AuxStruct Smooth ErgodicContracts.

Set Implicit Arguments.
Unset Strict Implicit.
Unset Printing Implicit Defensive.
Import GRing.Theory Num.Theory Order.TTheory.
Local Open Scope ring_scope.

(** ** Two particles *)
Section Two.
Variable Y : finType.
Definition two (b : 'I_2) (y z : Y) : {ffun 'I_2 -> Y} := [ffun i => if i == b then y else z].

Lemma sum2 (b : 'I_2) (g : 'I_2 -> R) : \sum_i g i = g b + g (b + 1).
Proof.
rewrite !big_ord_recl big_ord0 addr0; case: b => [[|[|b]] lt] //.
  by congr (g _ + g _); apply: val_inj.
by rewrite addrC; congr (g _ + g _); apply: val_inj.
Qed.

Lemma prod2 (b : 'I_2) (g : 'I_2 -> R) : \prod_i g i = g b * g (b + 1).
Proof.
rewrite !big_ord_recl big_ord0 mulr1; case: b => [[|[|b]] lt] //.
  by congr (g _ * g _); apply: val_inj.
by rewrite mulrC; congr (g _ * g _); apply: val_inj.
Qed.

Lemma other (b : 'I_2) : (b + 1 == b) = false.
Proof. by case: b => [[|[|b]] lt]. Qed.

Lemma not_b (b i : 'I_2) : (i == b) = false -> i = b + 1.
Proof. by case: b i => [[|[|b]] lt] [[|[|i]] lt'] // _; apply: val_inj. Qed.

Lemma sum_two b (G : {ffun 'I_2 -> Y} -> R) : \sum_d G d = \sum_y \sum_z G (two b y z).
Proof.
rewrite pair_big /= (reindex (fun p : Y * Y => two b p.1 p.2)) //=.
exists (fun d : {ffun 'I_2 -> Y} => (d b, d (b + 1))) => [[y z] _|d _].
  by rewrite /= !ffunE eqxx other.
by apply/ffunP => i; rewrite ffunE /=; case: eqP => [->|/eqP/negbTE/not_b ->].
Qed.

Lemma sum_two_law (nu : Y -> R) b x (G : {ffun 'I_2 -> Y} -> R) : prob_vec nu ->
  \sum_(d : {ffun 'I_2 -> Y}) (\prod_i nu (d i)) * G (upd d b x) = \sum_z nu z * G (two b x z).
Proof.
move=> [_ s1]; rewrite (sum_two b) exchange_big /=; apply: eq_bigr => z _.
transitivity (\sum_y nu y * (nu z * G (two b x z))); last by rewrite -mulr_suml s1 mul1r.
apply: eq_bigr => y _; rewrite (prod2 b) !ffunE eqxx other -mulrA; congr (_ * (_ * G _)).
by apply/ffunP => i; rewrite !ffunE; case: (i == b).
Qed.
End Two.

Lemma E_multi2 key (w : 'I_2 -> R) i j f : prob_vec w ->
  E (multinomial key w i j true) f = \sum_z w z * f (two j i z).
Proof. by move=> pw; rewrite E_multinomial // sum_two_law. Qed.

Lemma flat2 (lw : 'I_2 -> R) a : (forall i j, lw i = lw j) -> normalize lw a = 1 / 2%:R.
Proof.
move=> H; rewrite normalizeE (sum2 a) (H (a + 1) a); have := expR_gt0 (lw a); move: (exp _) => e e0.
have n0 : e != 0 by rewrite gt_eqF.
by rewrite -mulr2n -[e *+ 2]mulr_natr invfM mulrA divff ?mul1r.
Qed.

(** ** The witness *)
Section Witness.
Local Notation X := [finZmodType of 'I_2].
Definition t_noise (s : bool) (z : X) : R := if s then (if z == 0 then 2%:R / 3%:R else 1 / 3%:R) else 1 / 2%:R.
Definition t_ld (s : bool) (z : X) : R := if s && (z != 0) then - ln 2%:R else 0.
Definition t_scale (s : bool) (g : X) : X := g.
Definition t_val0 (x : X) : R := 0.
Definition t_valt (x y : X) (q : unit) : R := 0.
Definition t_g0 (x : X) : X := 0.
Definition t_ga (x y : X) (q : unit) : X := 1 : 'I_2.
Definition t_gb (x y : X) (q : unit) : X := (x * y : 'I_2).

Definition P (z : X) : R := if z == 0 then 2%:R else 1.
Definition om (u a b : X) : R := P (u - (b + t_gb a b tt)) / P (b - u).
Definition gt (u a b : X) : R := P (u - (b + (1 + t_gb a b tt))) / P (u - (b + t_gb a b tt)).

Variables (mv : mover 2) (key : key) (F : X -> R).
Hypothesis mv_proper : forall key w k, prob_vec w -> proper (mv key w k).

Definition bw (u : X) (x0r x1 : {ffun 'I_2 -> X}) (A : {ffun 'I_2 -> 'I_2}) (i : 'I_2) : R :=
  om u (x0r i) (x1 i) * gt u (x0r (A i)) (x1 i).
Definition picked u x0r x1 A : R := (\sum_i bw u x0r x1 A i * F (x1 i)) / \sum_i bw u x0r x1 A i.
Definition core u (x0 x1 : {ffun 'I_2 -> X}) (b0 b1 b2 : 'I_2) : R :=
  \sum_a 1 / 2%:R * (let x0r := take_ax x0 (two b1 b0 a) in
  \sum_c om u (x0r c) (x1 c) / (\sum_i om u (x0r i) (x1 i)) * picked u x0r x1 (two b2 b1 c)).

Lemma exp_ld z : exp (t_ld true z) = P z / 2%:R.
Proof.
rewrite /t_ld /P /=; case: eqP => _ /=; first by rewrite exp_0 divff // pnatr_eq0.
have -> : exp (- ln 2%:R) = (exp (ln 2%:R))^-1 by exact: exp_Ropp.
by rewrite exp_lnR ?ltr0n // mul1r.
Qed.

Lemma P_gt0 z : 0 < P z. Proof. by rewrite /P; case: ifP => _; rewrite ?ltr0n ?ltr01. Qed.

Lemma om_gt0 u a b : 0 < om u a b. Proof. by rewrite divr_gt0 ?P_gt0. Qed.
Lemma gt_gt0 u a b : 0 < gt u a b. Proof. by rewrite divr_gt0 ?P_gt0. Qed.

Lemma exp_lw1 u0 u1 (x0 x1 : {ffun 'I_2 -> X}) i :
  exp (als_G_1 t_ld t_scale t_valt t_g0 t_ga t_gb (false, u0) (true, u1, tt) x0 x1 i) = om u1 (x0 i) (x1 i).
Proof.
rewrite /als_G_1 /sm_Gamma_1 /t_valt /t_scale /= /om add0r.
have -> : t_ld false (u0 - (x0 i + (t_ga (x0 i) (x1 i) tt + t_g0 (x0 i)))) = 0 by [].
have -> : t_ld false (u0 - (x0 i + t_g0 (x0 i))) = 0 by [].
rewrite add0r subr0 expRB !exp_ld -mulf_div divff ?mulr1 //.
by rewrite invr_neq0 // pnatr_eq0.
Qed.

Lemma exp_Gt u1 u2 a b c :
  exp (sm_Gamma_t t_ld t_scale t_valt t_ga t_gb (true, u1, tt) (false, u2, tt) a b c) = gt u1 a b.
Proof.
rewrite /sm_Gamma_t /t_valt /t_scale /gt add0r.
have -> : t_ld false (u2 - (c + t_gb b c tt)) = 0 by [].
rewrite addr0 expRB !exp_ld -mulf_div divff ?mulr1 //.
by rewrite invr_neq0 // pnatr_eq0.
Qed.

Lemma t_core u0 u1 u2 b0 b1 b2 y0 y1 y2 :
  E (do o <- als_forward t_ld t_scale t_val0 t_valt t_g0 t_ga t_gb (@multinomial 2) key (false, u0) (true, u1, tt) [:: (false, u2, tt)]
        b0 b1 [:: b2] y0 y1 [:: y2];
     sm_finish t_ld t_scale t_valt t_g0 t_ga t_gb mv key (false, u0) (true, u1, tt) [:: (false, u2, tt)] b2 true o)
    (fun r => F (nth 0 r.1.1 1)) = core u1 y0 y1 b0 b1 b2.
Proof.
rewrite E_bind /als_forward E_bind E_multi2; last exact: normalize_prob.
apply: eq_bigr => a _; congr (_ * _).
  by apply: flat2 => i j; rewrite /minus_max /als_G_0 /sm_Gamma_0 /t_val0 /t_ld.
set x0r := take_ax _ _; set lw1 := als_G_1 _ _ _ _ _ _ _ _ _ _.
rewrite E_bind; cbn [scan als_inputs]; rewrite E_bind {1}/als_body E_bind E_multi2; last exact: normalize_prob.
have eo i : exp (lw1 i) = om u1 (x0r i) (y1 i) by exact: exp_lw1.
apply: eq_bigr => c _; congr (_ * _); first by rewrite normalizeE eo; congr (_ / _); apply: eq_bigr => i _; rewrite eo.
set A := two b2 b1 c.
pose lw2 := minus_max (als_G_t t_ld t_scale t_valt t_ga t_gb (true, u1, tt) (false, u2, tt) (take_ax x0r A) (take_ax y1 A) y2).
pose o := Fwd (minus_max (als_G_0 t_ld t_scale t_val0 t_g0 (false, u0) y0)) y0 (two b1 b0 a) x0r lw1 y1 [:: (lw2, A, take_ax y1 A, y2)].
transitivity (E (sm_finish t_ld t_scale t_valt t_g0 t_ga t_gb mv key (false, u0) (true, u1, tt) [:: (false, u2, tt)] b2 true o)
  (fun r : seq X * seq 'I_2 * seq (lwts 1) => F r.1.1`_1)); first by [].
rewrite /sm_finish E_bind /sm_backward_sampling E_bind.
transitivity (E (mv (split (split key 2) 2) (normalize lw2) b2) (fun _ => picked u1 x0r y1 A)); last first.
  by rewrite E_const //; apply: mv_proper; exact: normalize_prob.
apply: eq_E => -[B al]; cbv beta iota; rewrite E_bind E_choice; last exact: normalize_prob.
rewrite /picked mulr_suml; apply: eq_bigr => j _; rewrite mulrAC; congr (_ * _).
  have eb i : exp (sm_Gamma_t t_ld t_scale t_valt t_ga t_gb (true, u1, tt) (false, u2, tt) (take_ax x0r A i) (y1 i) (y2 B) + lw1 i) = bw u1 x0r y1 A i.
    have -> : take_ax x0r A i = x0r (A i) by rewrite ffunE.
    by rewrite expRD exp_Gt eo mulrC.
  rewrite normalizeE; transitivity (bw u1 x0r y1 A j / \sum_i bw u1 x0r y1 A i); last by [].
  congr (_ / _); first exact: eb.
  by apply: eq_bigr => i _; exact: eb.
rewrite E_bind /= -mulr_suml.
rewrite (eq_bigr _ (fun i _ => cat_law_prob (normalize_prob _) i)).
by rewrite normalize_sum mul1r.
Qed.

Lemma t_noiseP s : prob_vec (t_noise s).
Proof.
split=> [z|].
  by rewrite /t_noise; case: s => /=; first case: ifP => _; rewrite divr_ge0 ?ler0n ?ler01.
rewrite !big_ord_recl big_ord0 addr0 /t_noise /=; case: s; toR; field.
Qed.

Lemma sum_mk_pop (nu : X -> R) (u : X) b x (G : {ffun 'I_2 -> X} -> R) : prob_vec nu ->
  \sum_(d : {ffun 'I_2 -> X}) iid nu d * G (mk_pop u d b x) = \sum_z nu (z - u) * G (two b x z).
Proof.
move=> pn; rewrite -(sum_two_law b x G (shift_vec u pn)) -(sum_iid_shift nu u (fun d => G (upd d b x))).
by [].
Qed.

Lemma t_kernel x0 x1 x2 b0 b1 b2 :
  E (als_kernel t_noise t_ld t_scale t_val0 t_valt t_g0 t_ga t_gb (@multinomial 2) mv key x0 [:: x1; x2] b0 [:: b1; b2]
       false [:: true; false] [:: tt; tt] true) (fun r => F (nth 0 r.1.1 1))
  = \sum_e t_noise true e * (let u := x1 + (t_gb x0 x1 tt + t_ga x1 x2 tt) + e in
      \sum_y 1 / 2%:R * \sum_z t_noise true (z - u) * core u (two b0 x0 y) (two b1 x1 z) b0 b1 b2).
Proof.
rewrite /als_kernel E_bind E_normals /lsum [seq.map _ _]/=.
pose K e := (let u := x1 + (t_gb x0 x1 tt + t_ga x1 x2 tt) + e in
      \sum_y 1 / 2%:R * \sum_z t_noise true (z - u) * core u (two b0 x0 y) (two b1 x1 z) b0 b1 b2).
transitivity (\sum_e0 t_noise false e0 * \sum_e t_noise true e * \sum_e2 t_noise false e2 * K e); last first.
  under eq_bigr do under eq_bigr do rewrite -mulr_suml (proj2 (t_noiseP _)) mul1r.
  by rewrite -mulr_suml (proj2 (t_noiseP _)) mul1r.
apply: eq_bigr => e0 _; congr (_ * _); apply: eq_bigr => e1 _; congr (_ * _); apply: eq_bigr => e2 _; congr (_ * _).
rewrite E_bind E_normals /lsum [seq.map _ _]/= /K.
pose u0 := x0 + (t_g0 x0 + t_ga x0 x1 tt) + e0; set u := x1 + _ + _; pose u2 := x2 + t_gb x1 x2 tt + e2.
transitivity (\sum_(d0 : {ffun 'I_2 -> X}) iid (t_noise false) d0 * \sum_(d1 : {ffun 'I_2 -> X}) iid (t_noise true) d1
   * core u (mk_pop u0 d0 b0 x0) (mk_pop u d1 b1 x1) b0 b1 b2).
  apply: eq_bigr => d0 _; congr (_ * _); apply: eq_bigr => d1 _; congr (_ * _).
  transitivity (\sum_(d2 : {ffun 'I_2 -> X}) iid (t_noise false) d2 * core u (mk_pop u0 d0 b0 x0) (mk_pop u d1 b1 x1) b0 b1 b2).
    by apply: eq_bigr => d2 _; congr (_ * _); exact: (t_core u0 u u2 b0 b1 b2 _ _ (mk_pop u2 d2 b2 x2)).
  by rewrite -mulr_suml (proj2 (iid_prob _ (t_noiseP _))) mul1r.
rewrite (sum_mk_pop u0 b0 x0 (fun p => \sum_(d1 : {ffun 'I_2 -> X}) iid (t_noise true) d1
   * core u p (mk_pop u d1 b1 x1) b0 b1 b2) (t_noiseP _)).
apply: eq_bigr => y _; congr (_ * _).
exact: (sum_mk_pop u b1 x1 (fun p => core u (two b0 x0 y) p b0 b1 b2) (t_noiseP _)).
Qed.

(** The sum over ancestors, with the particles of the reference first. *)
Definition mix2 (x1 z : X) (p q : R) : R := (p * F x1 + q * F z) / (p + q).
Definition core2 (u x0 v x1 z : X) (s : bool) : R :=
  let o0 := om u x0 x1 in let o1 := om u v z in
  o0 / (o0 + o1) * mix2 x1 z (o0 * gt u x0 x1) (o1 * gt u x0 z)
  + o1 / (o0 + o1) * mix2 x1 z (o0 * gt u (if s then x0 else v) x1) (o1 * gt u (if s then v else x0) z).

Lemma two_b (Y : finType) b (y z : Y) : two b y z b = y. Proof. by rewrite ffunE eqxx. Qed.
Lemma two_o (Y : finType) b (y z : Y) : two b y z (b + 1) = z. Proof. by rewrite ffunE other. Qed.

Lemma core2E u x0 v x1 z (b1 b2 : 'I_2) :
  \sum_c om u (two b1 x0 v c) (two b1 x1 z c) / (\sum_i om u (two b1 x0 v i) (two b1 x1 z i))
    * picked u (two b1 x0 v) (two b1 x1 z) (two b2 b1 c) = core2 u x0 v x1 z (b2 == b1).
Proof.
rewrite !(sum2 b1) /picked !(sum2 b1) /bw !two_b !two_o /core2 /mix2; congr (_ + _).
  have A i : two b2 b1 b1 i = b1 by rewrite ffunE; case: ifP.
  by rewrite !A !two_b.
case: eqP => [->|/eqP/negbTE/not_b ->]; rewrite ?two_b ?two_o //.
have -> : two (b1 + 1) b1 (b1 + 1) b1 = b1 + 1 by rewrite ffunE eq_sym other.
by rewrite ?two_b ?two_o.
Qed.

Lemma coreE u x0 y x1 z b0 b1 b2 :
  core u (two b0 x0 y) (two b1 x1 z) b0 b1 b2
  = 1 / 2%:R * core2 u x0 x0 x1 z (b2 == b1) + 1 / 2%:R * core2 u x0 y x1 z (b2 == b1).
Proof.
rewrite /core (sum2 b0) /=.
have e c v : two b0 x0 y c = v -> take_ax (two b0 x0 y) (two b1 b0 c) = two b1 x0 v.
  by move=> <-; apply/ffunP => i; rewrite ffunE [two b1 b0 c i]ffunE [RHS]ffunE; case: ifP => // _; rewrite two_b.
by rewrite (e b0 x0) ?two_b // (e (b0 + 1) y) ?two_o // !core2E.
Qed.

(** ** The same with booleans *)
Definition i2 (b : bool) : 'I_2 := if b then 1 else 0.
Lemma i2D a b : i2 a + i2 b = i2 (a (+) b). Proof. by case: a; case: b; apply: val_inj. Qed.
Lemma i2N a : - i2 a = i2 a. Proof. by case: a; apply: val_inj. Qed.
Lemma i2M a b : i2 a * i2 b = i2 (a && b). Proof. by case: a; case: b; apply: val_inj. Qed.
Lemma i21 : 1 = i2 true. Proof. by []. Qed.
Lemma sum_i2 (g : X -> R) : \sum_x g x = g (i2 false) + g (i2 true).
Proof. by rewrite (sum2 0) add0r. Qed.
Definition pb (c : bool) : R := if c then 1 else 2%:R.
Lemma P_i2 c : P (i2 c) = pb c. Proof. by case: c. Qed.
Lemma t_noise_i2 c : t_noise true (i2 c) = pb c / 3%:R. Proof. by case: c. Qed.
Lemma om_i2 u a b : om (i2 u) (i2 a) (i2 b) = pb (u (+) (b (+) (a && b))) / pb (b (+) u).
Proof. by rewrite /om /t_gb i2M !(i2D, i2N) !P_i2. Qed.
Lemma gt_i2 u a b : gt (i2 u) (i2 a) (i2 b) = pb (u (+) (b (+) ~~ (a && b))) / pb (u (+) (b (+) (a && b))).
Proof. by rewrite /gt /t_gb i2M i21 !(i2D, i2N) !P_i2. Qed.
End Witness.

(** The function tested: whether the state of time 1 is 0. *)
Section Value.
Definition t_F (x : [finZmodType of 'I_2]) : R := if x == 0 then 1 else 0.
Lemma t_F_i2 c : t_F (i2 c) = if c then 0 else 1. Proof. by case: c. Qed.

Definition val_at (x0 x1 s : bool) : R :=
  \sum_e t_noise true e * (let u := i2 x1 + (t_gb (i2 x0) (i2 x1) tt + 1) + e in
      \sum_y 1 / 2%:R * \sum_z t_noise true (z - u) * (1 / 2%:R * core2 t_F u (i2 x0) (i2 x0) (i2 x1) z s + 1 / 2%:R * core2 t_F u (i2 x0) y (i2 x1) z s)).

Arguments i2 : simpl never.
Arguments pb : simpl never.

Lemma sum_pair2 (Y : finType) (G : seq Y -> R) : \sum_(t : 2.-tuple Y) G t = \sum_a \sum_b G [:: a; b].
Proof.
rewrite sum_tuple_cons; apply: eq_bigr => a _.
rewrite (sum_tuple_cons _ (fun t => G (a :: t))); apply: eq_bigr => b _.
by rewrite (sum_tuple0 (fun t => G [:: a, b & t])).
Qed.

Ltac value := rewrite /val_at; cbv zeta; rewrite !sum_i2 /t_gb i2M i21 !(i2D, i2N) /core2 /mix2; cbv zeta iota;
  rewrite !t_noise_i2 !om_i2 !gt_i2 !t_F_i2 /pb /=; toR; field.

Lemma val001 : val_at false false true = IZR 1003 / IZR 1215. Proof. value. Qed.
Lemma val000 : val_at false false false = IZR 112 / IZR 135. Proof. value. Qed.
Lemma val011 : val_at false true true = IZR 8 / IZR 45. Proof. value. Qed.
Lemma val010 : val_at false true false = IZR 137 / IZR 720. Proof. value. Qed.
Lemma val101 : val_at true false true = IZR 559 / IZR 720. Proof. value. Qed.
Lemma val100 : val_at true false false = IZR 55 / IZR 72. Proof. value. Qed.
Lemma val111 : val_at true true true = IZR 2 / IZR 9. Proof. value. Qed.
Lemma val110 : val_at true true false = IZR 55 / IZR 243. Proof. value. Qed.

Variables (mv : mover 2) (key : key).
Hypothesis mv_proper : forall key w k, prob_vec w -> proper (mv key w k).
Local Notation X := [finZmodType of 'I_2].

Lemma kernel_value (x0 x1 x2 : X) b0 b1 b2 :
  E (drop_weights (als_kernel t_noise t_ld t_scale t_val0 t_valt t_g0 t_ga t_gb (@multinomial 2) mv key x0 [:: x1; x2] b0 [:: b1; b2]
       false [:: true; false] [:: tt; tt] true)) (fun r => t_F (nth 0 r.1 1)) = val_at (x0 == 1) (x1 == 1) (b2 == b1).
Proof.
have ei (x : X) : i2 (x == 1) = x by case: x => [[|[|x]] lt] //; apply: val_inj.
rewrite /drop_weights E_bind; apply: etrans (t_kernel key t_F mv_proper x0 x1 x2 b0 b1 b2) _.
rewrite /val_at !ei; apply: eq_bigr => e _; congr (_ * _); cbv zeta.
by apply: eq_bigr => y _; congr (_ * _); apply: eq_bigr => z _; rewrite coreE.
Qed.

Lemma als_three_not_invariant :
  ~ leaves_invariant 2 (path_target t_val0 t_valt [:: tt; tt]) (fun x0 xs b0 bs =>
      drop_weights (als_kernel t_noise t_ld t_scale t_val0 t_valt t_g0 t_ga t_gb (@multinomial 2) mv key x0 xs b0 bs
        false [:: true; false] [:: tt; tt] true)).
Proof.
move=> /(_ (fun xs _ => t_F (nth 0 xs 1))).
rewrite /traj_sum.
have flat x0 x1 x2 : path_target t_val0 t_valt [:: tt; tt] x0 [:: x1; x2] = 1.
  by rewrite /path_target /= /t_val0 /t_valt !addr0 exp_0.
have tup (G : X -> 'I_2 -> seq X -> seq 'I_2 -> R) :
    \sum_x0 \sum_b0 \sum_(xs : 2.-tuple X) \sum_(bs : 2.-tuple 'I_2) G x0 b0 xs bs
    = \sum_x0 \sum_b0 \sum_x1 \sum_x2 \sum_b1 \sum_b2 G x0 b0 [:: x1; x2] [:: b1; b2].
  apply: eq_bigr => x0 _; apply: eq_bigr => b0 _.
  rewrite (sum_pair2 (fun xs => \sum_(bs : 2.-tuple 'I_2) G x0 b0 xs bs)).
  by apply: eq_bigr => x1 _; apply: eq_bigr => x2 _; rewrite (sum_pair2 (fun bs => G x0 b0 [:: x1; x2] bs)).
rewrite (tup (fun x0 b0 xs bs => path_target t_val0 t_valt [:: tt; tt] x0 xs * E (drop_weights (als_kernel t_noise t_ld t_scale t_val0 t_valt t_g0 t_ga
  t_gb (multinomial (n:=2)) mv key x0 xs b0 bs false [:: true; false] [:: tt; tt] true)) (fun r : seq X * seq 'I_2 => t_F r.1`_1))).
rewrite (tup (fun x0 b0 xs bs => path_target t_val0 t_valt [:: tt; tt] x0 xs * t_F (x0 :: xs)`_1)).
pose V (x0 x1 : X) := val_at (x0 == 1) (x1 == 1) true + val_at (x0 == 1) (x1 == 1) false.
have -> : \sum_x0 \sum_(b0 : 'I_2) \sum_x1 \sum_x2 \sum_b1 \sum_b2
    path_target t_val0 t_valt [:: tt; tt] x0 [:: x1; x2] * E (drop_weights (als_kernel t_noise t_ld t_scale t_val0 t_valt t_g0 t_ga
      t_gb (multinomial (n:=2)) mv key x0 [:: x1; x2] b0 [:: b1; b2] false [:: true; false] [:: tt; tt] true)) (fun r : seq X * seq 'I_2 => t_F r.1`_1)
  = \sum_x0 \sum_(b0 : 'I_2) \sum_x1 \sum_(x2 : X) \sum_(b1 : 'I_2) V x0 x1.
  apply: eq_bigr => x0 _; apply: eq_bigr => b0 _; apply: eq_bigr => x1 _; apply: eq_bigr => x2 _; apply: eq_bigr => b1 _.
  under eq_bigr => b2 _ do rewrite flat mul1r kernel_value.
  by rewrite (sum2 b1) eqxx other.
have -> : \sum_x0 \sum_(b0 : 'I_2) \sum_x1 \sum_x2 \sum_(b1 : 'I_2) \sum_(b2 : 'I_2)
    path_target t_val0 t_valt [:: tt; tt] x0 [:: x1; x2] * t_F [:: x0; x1; x2]`_1
  = \sum_(x0 : X) \sum_(b0 : 'I_2) \sum_x1 \sum_(x2 : X) \sum_(b1 : 'I_2) \sum_(b2 : 'I_2) t_F x1.
  apply: eq_bigr => x0 _; apply: eq_bigr => b0 _; apply: eq_bigr => x1 _; apply: eq_bigr => x2 _; apply: eq_bigr => b1 _.
  by apply: eq_bigr => b2 _; rewrite flat mul1r.
rewrite !sum_i2 /V !t_F_i2.
rewrite (_ : (i2 false == 1) = false) // (_ : (i2 true == 1) = true) //.
rewrite val000 val001 val010 val011 val100 val101 val110 val111.
toR; lra.
Qed.
End Value.

Lemma t_ldP s : exists c : R, c != 0 /\ forall z, exp (t_ld s z) = c * t_noise s z.
Proof.
case: s.
  exists (3%:R / 2%:R); split=> [|z]; first by rewrite mulf_neq0 ?invr_eq0 ?pnatr_eq0.
  by rewrite exp_ld /t_noise /P; case: eqP => _; toR; field.
exists 2%:R; split=> [|z]; first by rewrite pnatr_eq0.
by rewrite /t_ld /t_noise /= exp_0; toR; field.
Qed.
