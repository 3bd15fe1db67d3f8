(** * ErgodicSingle: the long run of mala.py, tp.py and imh.py. *)
From Coq Require Import Reals Lra FunctionalExtensionality.
From mathcomp Require Import all_ssreflect all_algebra.
From Verif Require Import RInst Prog ProgTheory Resampling Spec ResamplingProofs MoveProofs CsmcInvariance.
From Verif Require Import Single SingleSpec SingleProofs SingleFinal DriverSpec Drivers DriverProofs.
From Verif Require Import ErgodicSpec ErgodicTheory ErgodicChain ErgodicFinal ErgodicSingleSpec.

Set Implicit Arguments.
Unset Strict Implicit.
Unset Printing Implicit Defensive.
Import GRing.Theory Num.Theory Order.TTheory.
Local Open Scope ring_scope.

(** ** Single states as trajectories of one state *)
Section One.
Variables (X : finType) (C : Type) (cached : X -> C) (K : key -> X * C -> prog (X * C * bool)).
Hypothesis coh : forall key x, always (fun r => r.1.2 = cached r.1.1) (K key (x, cached x)).
Hypothesis total : forall key x, E (K key (x, cached x)) (fun=> 1) = 1.
Hypothesis free : forall key key' x (f : X -> R),
  E (K key (x, cached x)) (fun r => f r.1.1) = E (K key' (x, cached x)) (fun r => f r.1.1).
Hypothesis reach : forall key x y, 0 < Pr (K key (x, cached x)) (fun r => r.1.1 == y).

Definition as_path (key : key) (x0 : X) (_ : seq X) (_ : 'I_1) (_ : seq 'I_1) : prog (seq X * seq 'I_1) :=
  do r <- K key (x0, cached x0); Ret ([:: r.1.1], [:: ord0]).

Lemma as_path_sizes key x0 xs b0 bs : size xs = 0%N -> size bs = 0%N ->
  always (fun r => size r.1 = 1%N /\ size r.2 = 1%N) (as_path key x0 xs b0 bs).
Proof. by move=> _ _; apply/always_bind; exact: always_true. Qed.

Lemma as_path_total key x0 xs b0 bs : size xs = 0%N -> size bs = 0%N -> E (as_path key x0 xs b0 bs) (fun=> 1) = 1.
Proof. by move=> _ _; rewrite /as_path E_bind; exact: total. Qed.

Lemma as_path_free key key' x0 xs b0 bs b0' bs' (f : seq X -> R) : size xs = 0%N -> size bs = 0%N -> size bs' = 0%N ->
  E (as_path key x0 xs b0 bs) (fun r => f r.1) = E (as_path key' x0 xs b0' bs') (fun r => f r.1).
Proof. by move=> _ _ _; rewrite /as_path !E_bind; exact: (free key key' x0 (fun z => f [:: z])). Qed.

Lemma as_path_reach key x0 xs b0 bs ys : size xs = 0%N -> size bs = 0%N -> size ys = 1%N ->
  0 < Pr (as_path key x0 xs b0 bs) (fun r => r.1 == ys).
Proof.
move=> _ _; case: ys => // y [|? ?] // _; rewrite /Pr /as_path E_bind.
rewrite (eq_E _ _ (g := fun r => (r.1.1 == y)%:R)) => [|r]; first exact: reach.
by rewrite /= eqseq_cons eqxx andbT.
Qed.

Lemma after_path keys x d (f : X -> R) (b0 : 'I_1) :
  E (after (next K) keys (x, cached x)) (fun s => f s.1)
  = E (after (on_pairs as_path) keys ([:: x], [:: b0])) (fun s => f (head d s.1)).
Proof.
elim: keys x b0 => [|k keys IH] x b0 //; rewrite [LHS]E_bind [RHS]E_bind.
rewrite [LHS]E_bind [RHS]E_bind; apply: eq_E_always; apply: always_imp (coh k x) => -[[z c] b] /= e.
by rewrite e; exact: IH.
Qed.

Lemma visited_path keys x d (F : seq X -> R) (b0 : 'I_1) :
  E (visited (next K) keys (x, cached x)) (fun l => F [seq s.1 | s <- l])
  = E (visited (on_pairs as_path) keys ([:: x], [:: b0])) (fun l => F [seq head d s.1 | s <- l]).
Proof.
elim: keys x b0 F => [|k keys IH] x b0 F //; rewrite [LHS]E_bind [RHS]E_bind.
rewrite [LHS]E_bind [RHS]E_bind; apply: eq_E_always; apply: always_imp (coh k x) => -[[z c] b] /= e.
rewrite !E_bind e /=; exact: (IH z ord0 (fun l => F (z :: l))).
Qed.

Lemma sum_tuple0 (Y : finType) (F : seq Y -> R) : \sum_(t : 0.-tuple Y) F t = F [::].
Proof. by rewrite (bigD1 [tuple]) //= big1 ?addr0 // => t; rewrite [t]tuple0 => /eqP. Qed.

Lemma path_mean1 (target : X -> R) d (f : X -> R) :
  path_mean 0 (fun x _ => target x) (fun zs => f (head d zs)) = mean_under target f.
Proof.
rewrite /path_mean /mean_under /path_sum; congr (_ / _); apply: eq_bigr => x _.
  exact: (sum_tuple0 (fun t => target x * f x)).
exact: (sum_tuple0 (fun t => target x)).
Qed.

Lemma thinned_map (A B : Type) (h : A -> B) a b k (l : seq A) : (0 < k)%N ->
  map h (thinned a k l) = thinned b k (map h l).
Proof. by move=> k0; rewrite -!everyE // /every size_map map_mask. Qed.

Lemma nearly_path (target : X -> R) k0 c eps :
  nearly_keeps_target target (fun x => do r <- K k0 (x, cached x); Ret r.1.1) c eps ->
  nearly_invariant 0 (fun x _ => target x) (as_path k0) c eps.
Proof.
move=> near f fc; have := near (fun x => f [:: x] [:: ord0]) (fun x => fc _ _).
rewrite /traj_sum.
have red (G : X -> seq X -> 'I_1 -> seq 'I_1 -> R) :
    \sum_x0 \sum_(b0 : 'I_1) \sum_(xs : 0.-tuple X) \sum_(bs : 0.-tuple 'I_1) G x0 xs b0 bs
    = \sum_x0 G x0 [::] ord0 [::].
  apply: eq_bigr => x0 _; rewrite big_ord1.
  rewrite (eq_bigr (fun xs : 0.-tuple X => G x0 xs ord0 [::])) ?(sum_tuple0 (fun xs => G x0 xs ord0 [::])) // => xs _.
  exact: (sum_tuple0 (fun bs => G x0 xs ord0 bs)).
rewrite (red (fun x0 xs b0 bs => target x0 * E (as_path k0 x0 xs b0 bs) (fun r => f r.1 r.2))).
rewrite (red (fun x0 xs b0 bs => target x0 * f (x0 :: xs) (b0 :: bs))) (red (fun x0 _ _ _ => target x0 * eps)) => h.
apply: le_trans h; rewrite le_eqVlt; apply/orP; left; apply/eqP; congr (`|_ - _|); apply: eq_bigr => x _; congr (_ * _).
by rewrite /as_path !E_bind.
Qed.

Lemma forgets_one (x0 : X) : forgets_position cached K.
Proof.
have [e e01 H] := forgets_of [::] as_path_sizes as_path_total as_path_free as_path_reach [tuple x0].
exists e => // keys keys' x y f c sk fc.
rewrite (after_path keys x x f ord0) (after_path keys' y x f ord0).
exact: (H keys keys' x [::] ord0 [::] y [::] ord0 [::] (fun zs => f (head x zs)) c).
Qed.

Lemma settles_one (x0 : X) (target : X -> R) (bias : R -> R) (d : R) (k0 : key) :
  (forall x, 0 < target x) -> 0 <= d -> (forall c, bias c = d * c) ->
  (forall c, nearly_keeps_target target (fun x => do r <- K k0 (x, cached x); Ret r.1.1) c (d * c)) ->
  settles_position cached K target bias.
Proof.
move=> t0 d0 eb near.
have [_ [_ [e e01 [cv av]]]] := settles_of (fun x _ => t0 x) as_path_sizes as_path_total as_path_free as_path_reach
  [tuple x0] d0 eb (fun c => nearly_path (near c)).
exists e => //; split=> [keys x f c fc|keys k x f c fc k_gt0 n_gt0].
  rewrite (after_path keys x x f ord0) -(path_mean1 target x f).
  exact: (cv keys x [::] ord0 [::] (fun zs => f (head x zs)) c).
have := av keys k x [::] ord0 [::] (fun zs => f (head x zs)) c erefl erefl (fun zs => fc _) k_gt0 n_gt0.
rewrite path_mean1; apply: le_trans; rewrite le_eqVlt; apply/orP; left; apply/eqP.
rewrite (visited_path keys x x (fun l => (average f (thinned x k l) - mean_under target f) ^+ 2) ord0).
apply: eq_E => l; congr ((_ - _) ^+ 2); rewrite /average.
have -> : [seq head x s.1 | s <- l] = map (head x) [seq s.1 | s <- l] by rewrite -map_comp.
by rewrite -(thinned_map (head x) [::]) // size_map big_map.
Qed.
End One.

(** ** Kernels that select among the current state and proposals *)
Section Multi.
Variables (X U : finType) (N : nat) (mv : mover N.+1).
Local Notation pop := {ffun 'I_N.+1 -> X}.
Variables (C : Type) (cached : X -> C) (K : key -> X * C -> prog (X * C * bool)).
Variables (L : X -> U -> {ffun 'I_N -> X} -> R) (W : U -> pop -> 'I_N.+1 -> R) (u0 : U).
Hypothesis mm : mixing_mover mv.
Hypothesis N0 : (0 < N)%N.
Hypothesis coh : forall key x, always (fun r => r.1.2 = cached r.1.1) (K key (x, cached x)).
Hypothesis KE : forall key x (f : X -> R), E (K key (x, cached x)) (fun r => f r.1.1)
  = \sum_u \sum_y L x u y * E (mv (split key 1) (normalize (W u (front x y))) ord0) (fun r => f (front x y r.1)).
Hypothesis L1 : forall x, \sum_u \sum_y L x u y = 1.
Hypothesis L_gt0 : forall x u y, 0 < L x u y.

Lemma multi_total key x : E (K key (x, cached x)) (fun=> 1) = 1.
Proof.
rewrite (KE key x (fun=> 1)) -[RHS](L1 x); apply: eq_bigr => u _; apply: eq_bigr => y _.
rewrite E_const ?mulr1 //.
by case: mm => _ _; apply; exact: normalize_prob.
Qed.

Lemma multi_free key key' x (f : X -> R) :
  E (K key (x, cached x)) (fun r => f r.1.1) = E (K key' (x, cached x)) (fun r => f r.1.1).
Proof.
rewrite !KE; apply: eq_bigr => u _; apply: eq_bigr => y _; congr (_ * _).
case: mm => rot _ _; have := rot (split key 1) (split key' 1) (normalize (W u (front x y))) ord0 ord0
  (fun i => f (front x y i)) (normalize_prob _).
rewrite !E_index_of addr0.
have -> : moved_w ord0 (normalize (W u (front x y))) = normalize (W u (front x y)).
  by apply: functional_extensionality => i; rewrite /moved_w subr0.
by move=> ->; apply: eq_E => r; rewrite addr0.
Qed.

Lemma multi_reach key x z : 0 < Pr (K key (x, cached x)) (fun r => r.1.1 == z).
Proof.
rewrite /Pr (KE key x (fun y => (y == z)%:R)).
case: mm => _ lea pr; pose y := [ffun _ : 'I_N => z].
have ge0 u y' : 0 <= L x u y' * E (mv (split key 1) (normalize (W u (front x y'))) ord0) (fun r => (front x y' r.1 == z)%:R).
  apply: mulr_ge0; first exact: ltW.
  by apply: E_ge0 => [|r]; [apply: pr; exact: normalize_prob|exact: ler0n].
rewrite (bigD1 u0) //=; apply: ltr_paddr; first by apply: sumr_ge0 => u _; apply: sumr_ge0 => y' _; exact: ge0.
rewrite (bigD1 y) //=; apply: ltr_paddr; first by apply: sumr_ge0 => y' _; exact: ge0.
apply: mulr_gt0 => //; pose j := lift ord0 (Ordinal N0) : 'I_N.+1.
have := lea (split key 1) (normalize (W u0 (front x y))) ord0 j (normalize_prob _) (normalize_gt0 _).
rewrite /Pr E_index_of => /(_ isT) h; apply: lt_le_trans h _.
apply: E_le; first by apply: pr; exact: normalize_prob.
by move=> r; rewrite ler_nat /=; case ej: (r.1 == j) => //; rewrite (eqP ej) frontS ffunE eqxx.
Qed.

Lemma multi_forgets (x0 : X) : forgets_position cached K.
Proof. exact: (forgets_one coh multi_total multi_free multi_reach x0). Qed.

Lemma multi_settles (x0 : X) (target : X -> R) (bias : R -> R) (d : R) (k0 : key) :
  (forall x, 0 < target x) -> 0 <= d -> (forall c, bias c = d * c) ->
  (forall c, nearly_keeps_target target (fun x => do r <- K k0 (x, cached x); Ret r.1.1) c (d * c)) ->
  settles_position cached K target bias.
Proof. exact: (settles_one coh multi_total multi_free multi_reach x0). Qed.
End Multi.

(** ** The three kernels *)
Section Mala.
Variables (X : finZmodType) (N : nat) (log_pdf : X -> R) (grad : X -> X) (noise ld : X -> R) (scale : X -> X).
Variable log_H : {ffun 'I_N.+1 -> X} -> X -> X -> R.
Hypothesis N0 : (0 < N)%N.
Hypothesis noiseP : prob_vec noise.
Hypothesis noise_gt0 : forall z, 0 < noise z.
Local Notation cached := (fun x : X => (log_pdf x, grad x)).
Local Notation mala mv aux := (regrouped (fun k => mala_kernel log_pdf grad noise ld scale log_H mv k aux)).

Lemma regroupedE (Km : key -> X * R * X -> prog (X * R * X * bool)) k x v g (f : X -> R) :
  E (regrouped Km k (x, (v, g))) (fun r => f r.1.1) = E (at_pos (Km k (x, v, g))) f.
Proof. by rewrite /regrouped /at_pos !E_bind. Qed.

Lemma regrouped_coh (Km : key -> X * R * X -> prog (X * R * X * bool)) k x :
  always (fun r : X * R * X * bool => r.1.1.2 = log_pdf r.1.1.1 /\ r.1.2 = grad r.1.1.1) (Km k (x, log_pdf x, grad x)) ->
  always (fun r : X * (R * X) * bool => r.1.2 = cached r.1.1) (regrouped Km k (x, cached x)).
Proof.
move=> h; apply/always_bind; apply: always_imp h => -[[[y v] g] b] /= [h1 h2]; by rewrite -h1 -h2.
Qed.

Lemma mala_coh mv aux k x : always (fun r : X * (R * X) * bool => r.1.2 = cached r.1.1) (mala mv aux k (x, cached x)).
Proof.
apply: regrouped_coh.
by apply: always_imp (@mala_ok X log_pdf grad N noise ld scale log_H mv k aux (x, log_pdf x, grad x) _) => // r [].
Qed.

Lemma mL_gt0 x u (y : {ffun 'I_N -> X}) : 0 < mL grad noise scale x u y.
Proof. by apply: mulr_gt0 => //; apply: prodr_gt0. Qed.

Lemma mala_KE mv aux k x (f : X -> R) : E (mala mv aux k (x, cached x)) (fun r => f r.1.1)
  = \sum_u \sum_y mL grad noise scale x u y
      * E (mv (split k 1) (normalize (mW log_pdf grad ld scale log_H aux u (front x y))) ord0) (fun r => f (front x y r.1)).
Proof. by rewrite regroupedE; exact: mala_law. Qed.

Lemma mala_forgets mv aux : mixing_mover mv -> forgets_position cached (mala mv aux).
Proof.
move=> mm; apply: (multi_forgets (0 : X) mm N0 (mala_coh mv aux) (mala_KE mv aux) _ mL_gt0 0).
exact: mL1.
Qed.

Definition marginal_H (aux : bool) : Prop :=
  if aux then (forall z, noise (- z) = noise z) /\ exists c, c != 0 /\ forall z, exp (ld z) = c * noise z
  else exists S : {ffun 'I_N.+1 -> X} -> R, forall (x : {ffun 'I_N.+1 -> X}) b phi,
    \sum_u noise (u - (x b + phi)) * \prod_(i | i != b) noise (x i - u) = S x * exp (log_H x (x b) phi).

Lemma mala_settles_near mv aux d bias : mixing_mover mv -> 0 <= d -> (forall c, bias c = d * c) ->
  (forall key c, nearly_keeps_target (fun x => exp (log_pdf x))
    (fun x => at_pos (mala_kernel log_pdf grad noise ld scale log_H mv key aux (tp1_init log_pdf grad x))) c (d * c)) ->
  settles_position cached (mala mv aux) (fun x => exp (log_pdf x)) bias.
Proof.
move=> mm d0 eb near.
apply: (multi_settles (0 : X) mm N0 (mala_coh mv aux) (mala_KE mv aux) _ mL_gt0 0 (k0 := [::]) _ d0 eb).
- exact: mL1.
- by move=> x; exact: expR_gt0.
move=> c f fc; have := near [::] c f fc; congr (is_true (`|_ - _| <= _)); apply: eq_bigr => x _; congr (_ * _).
by rewrite -(regroupedE (fun k => mala_kernel log_pdf grad noise ld scale log_H mv k aux)) [RHS]E_bind.
Qed.

Lemma exact_keeps (Y : finType) (target : Y -> R) (kern : Y -> prog Y) c :
  keeps_target target kern -> nearly_keeps_target target kern c (0 * c).
Proof. by move=> h f _; rewrite h subrr normr0 mul0r big1 // => x _; rewrite mulr0. Qed.

Lemma mala_settles mv aux : mixing_mover mv -> relabels mv -> good_mover mv -> marginal_H aux ->
  settles_position cached (mala mv aux) (fun x => exp (log_pdf x)) (fun=> 0).
Proof.
move=> mm rel gm h; apply: (mala_settles_near (d := 0)) => // [c|key c]; first by rewrite mul0r.
apply: exact_keeps; case: aux h => [[h1 h2]|h]; first exact: mala_aux_keeps.
exact: mala_marg_keeps.
Qed.

Lemma mala_settles_force aux : marginal_H aux ->
  settles_position cached (mala (@force_move _) aux) (fun x => exp (log_pdf x)) (force_eps N.+1).
Proof.
move=> h; have [_ _ _ mm] := mixing_contracts N.
apply: (mala_settles_near (d := force_d N.+1)) => // [|c|key c].
- exact: force_d_ge0.
- exact: force_dE.
- by rewrite -force_dE; apply: mala_force.
Qed.
End Mala.

Section Tp.
Variables (X : finZmodType) (N : nat) (log_pdf : X -> R) (grad : X -> X) (noise : X -> R) (scale : X -> X).
Variables (corr : X -> X -> X -> R) (post_sampling : key -> X -> prog {ffun 'I_N -> X}).
Variables (prior : X -> R) (post : X -> X -> R).
Hypothesis N0 : (0 < N)%N.
Hypothesis noiseP : prob_vec noise.
Hypothesis noise_gt0 : forall z, 0 < noise z.
Hypothesis post_gt0 : forall u z, 0 < post u z.
Hypothesis postS : forall key u, samples_indep (post_sampling key u) (fun _ => post u).
Local Notation cached := (fun x : X => (log_pdf x, grad x)).
Local Notation tp mv := (regrouped (tp1_kernel log_pdf grad noise scale mv corr post_sampling)).

Lemma postP u : prob_vec (post u).
Proof. by have [_ h _] := postS [::] u; exact: (h (Ordinal N0)). Qed.

Lemma tp_coh mv k x : always (fun r : X * (R * X) * bool => r.1.2 = cached r.1.1) (tp mv k (x, cached x)).
Proof.
apply: regrouped_coh.
by apply: always_imp (@tp1_ok X log_pdf grad N noise scale mv corr post_sampling k (x, log_pdf x, grad x) _) => // r [].
Qed.

Lemma tL_gt0 x u (y : {ffun 'I_N -> X}) : 0 < tL grad noise scale post x u y.
Proof. by apply: mulr_gt0 => //; apply: prodr_gt0. Qed.

Lemma tp_KE mv k x (f : X -> R) : E (tp mv k (x, cached x)) (fun r => f r.1.1)
  = \sum_u \sum_y tL grad noise scale post x u y
      * E (mv (split k 1) (normalize (tW log_pdf grad corr u (front x y))) ord0) (fun r => f (front x y r.1)).
Proof. by rewrite regroupedE; exact: tp1_law. Qed.

Lemma tp_forgets1 mv : mixing_mover mv -> forgets_position cached (tp mv).
Proof.
move=> mm; apply: (multi_forgets (0 : X) mm N0 (tp_coh mv) (tp_KE mv) _ tL_gt0 0).
by apply: tL1 => //; exact: postP.
Qed.

Hypothesis prior_gt0 : forall x, 0 < prior x.
Hypothesis postE : forall u, exists Z, forall x, prior x * noise (u - x) = Z * post u x.
Hypothesis corrE : forall u x g, noise (u - x) * exp (corr u x g) = noise (u - (x + scale g)).

Lemma tp_settles_near1 mv d bias : mixing_mover mv -> 0 <= d -> (forall c, bias c = d * c) ->
  (forall key c, nearly_keeps_target (fun x => prior x * exp (log_pdf x))
    (fun x => at_pos (tp1_kernel log_pdf grad noise scale mv corr post_sampling key (tp1_init log_pdf grad x))) c (d * c)) ->
  settles_position cached (tp mv) (fun x => prior x * exp (log_pdf x)) bias.
Proof.
move=> mm d0 eb near.
apply: (multi_settles (0 : X) mm N0 (tp_coh mv) (tp_KE mv) _ tL_gt0 0 (k0 := [::]) _ d0 eb).
- by apply: tL1 => //; exact: postP.
- by move=> x; apply: mulr_gt0 => //; exact: expR_gt0.
move=> c f fc; have := near [::] c f fc; congr (is_true (`|_ - _| <= _)); apply: eq_bigr => x _; congr (_ * _).
by rewrite -(regroupedE (tp1_kernel log_pdf grad noise scale mv corr post_sampling)) [RHS]E_bind.
Qed.

Lemma tp_settles1 mv : mixing_mover mv -> relabels mv -> good_mover mv ->
  settles_position cached (tp mv) (fun x => prior x * exp (log_pdf x)) (fun=> 0).
Proof.
move=> mm rel gm; apply: (tp_settles_near1 (d := 0)) => // [c|key c]; first by rewrite mul0r.
by apply: exact_keeps; exact: (tp1_keeps _ _ noiseP rel postP postS postE corrE).
Qed.

Lemma tp_settles_force1 : settles_position cached (tp (@force_move _)) (fun x => prior x * exp (log_pdf x)) (force_eps N.+1).
Proof.
have [_ _ _ mm] := mixing_contracts N.
apply: (tp_settles_near1 (d := force_d N.+1)) => // [|c|key c].
- exact: force_d_ge0.
- exact: force_dE.
- rewrite -force_dE; apply: (@tp1_force X N log_pdf grad noise scale corr post_sampling prior post) => //; last exact: postP.
  by move=> x; exact: ltW.
Qed.
End Tp.

Section Imh.
Variables (X : finType) (N : nat) (log_pdf : X -> R) (prior_sampling : key -> prog {ffun 'I_N -> X}) (prior : X -> R).
Hypothesis N0 : (0 < N)%N.
Hypothesis prior_gt0 : forall x, 0 < prior x.
Hypothesis priorS : forall key, samples_indep (prior_sampling key) (fun _ => prior).
Local Notation imh mv := (imh_kernel log_pdf prior_sampling mv).

Lemma priorP : prob_vec prior.
Proof. by have [_ h _] := priorS [::]; exact: (h (Ordinal N0)). Qed.

Lemma some_state : exists x : X, True.
Proof.
case: (pickP (fun _ : X => true)) => [x _|no]; first by exists x.
have [_ h] := priorP; have := @oner_neq0 R_ringType; rewrite -h big1 ?eqxx // => x; by have := no x.
Qed.

Lemma imh_coh mv k x : always (fun r => r.1.2 = log_pdf r.1.1) (imh mv k (x, log_pdf x)).
Proof.
by apply: always_imp (@imh_ok X log_pdf N prior_sampling mv k (x, log_pdf x) _) => // r [].
Qed.

Lemma imh_KE mv k x (f : X -> R) : E (imh mv k (x, log_pdf x)) (fun r => f r.1.1)
  = \sum_t \sum_y iL prior x t y
      * E (mv (split k 1) (normalize (iW log_pdf t (front x y))) ord0) (fun r => f (front x y r.1)).
Proof. by rewrite -(imh_law log_pdf mv priorS k x f) [RHS]E_bind. Qed.

Lemma iL_gt0 x u (y : {ffun 'I_N -> X}) : 0 < iL prior x u y.
Proof. by apply: prodr_gt0. Qed.

Lemma imh_forgets1 mv : mixing_mover mv -> forgets_position log_pdf (imh mv).
Proof.
move=> mm; have [x0 _] := some_state.
apply: (multi_forgets tt mm N0 (imh_coh mv) (imh_KE mv) _ iL_gt0 x0) => x; apply: iL1; exact: priorP.
Qed.

Lemma imh_settles_near1 mv d bias : mixing_mover mv -> 0 <= d -> (forall c, bias c = d * c) ->
  (forall key c, nearly_keeps_target (fun x => prior x * exp (log_pdf x))
    (fun x => do r <- imh mv key (imh_init log_pdf x); Ret r.1.1) c (d * c)) ->
  settles_position log_pdf (imh mv) (fun x => prior x * exp (log_pdf x)) bias.
Proof.
move=> mm d0 eb near; have [x0 _] := some_state.
apply: (multi_settles tt mm N0 (imh_coh mv) (imh_KE mv) _ iL_gt0 x0 (k0 := [::]) _ d0 eb).
- by move=> x; apply: iL1; exact: priorP.
- by move=> x; apply: mulr_gt0 => //; exact: expR_gt0.
exact: near.
Qed.

Lemma imh_settles1 mv : mixing_mover mv -> relabels mv -> good_mover mv ->
  settles_position log_pdf (imh mv) (fun x => prior x * exp (log_pdf x)) (fun=> 0).
Proof.
move=> mm rel gm; apply: (imh_settles_near1 (d := 0)) => // [c|key c]; first by rewrite mul0r.
by apply: exact_keeps; exact: (imh_keeps _ rel priorP priorS).
Qed.

Lemma imh_settles_force1 :
  settles_position log_pdf (imh (@force_move _)) (fun x => prior x * exp (log_pdf x)) (force_eps N.+1).
Proof.
have [_ _ _ mm] := mixing_contracts N.
apply: (imh_settles_near1 (d := force_d N.+1)) => // [|c|key c].
- exact: force_d_ge0.
- exact: force_dE.
- by rewrite -force_dE; apply: imh_force => //; exact: priorP.
Qed.
End Imh.

(** ** The sampling loop of tp.py *)
Section Loop.
Variables (X : finType) (C : Type) (cached : X -> C) (K : key -> X * C -> prog (X * C * bool)).
Variables (target : X -> R) (bias : R -> R).

Lemma visited_next keys s b (F : seq (X * C) -> R) :
  E (visited (fun key (x : X * C * bool) => K key x.1) keys (s, b)) (fun l => F [seq x.1 | x <- l])
  = E (visited (next K) keys s) F.
Proof.
elim: keys s b F => [|k keys IH] s b F //=; rewrite [LHS]E_bind [RHS]E_bind [RHS]E_bind.
apply: eq_E => -[s' b'] /=; rewrite !E_bind; exact: (IH s' b' (fun l => F (s' :: l))).
Qed.

Lemma tp_loop_averages : settles_position cached K target bias ->
  exists2 e, 0 < e <= 1 &
  forall key x n k (f : X -> R) c, (0 < k)%N -> (0 < n)%N -> (forall z, `|f z| <= c) ->
    E (tp_sampling K key (x, cached x) n k)
      (fun out => if out is inl r then (average f r.1 - mean_under target f) ^+ 2 else 0)
    <= 4%:R * c ^+ 2 * (1 + 2%:R / e) / ((n + k.-1) %/ k)%:R + 4%:R * c * (bias c / e).
Proof.
case=> e e01 [_ av]; exists e => // key x n k f c k0 n0 fc.
have sk : size [seq split key i | i <- iota 0 n] = n by rewrite size_map size_iota.
have := av [seq split key i | i <- iota 0 n] k x f c fc k0; rewrite sk => /(_ n0); apply: le_trans.
rewrite le_eqVlt; apply/orP; left; apply/eqP; rewrite tp_samplingE E_bind.
rewrite -(visited_next _ _ false (fun l => (average f (thinned x k [seq s.1 | s <- l]) - mean_under target f) ^+ 2)).
by apply: eq_E => l; rewrite (negbTE (_ : k != 0%N)) -?lt0n //= -map_comp.
Qed.

Lemma tp_loop_last : settles_position cached K target bias ->
  exists2 e, 0 < e <= 1 &
  forall key x n (f : X -> R) c, (forall z, `|f z| <= c) ->
    `|E (tp_sampling K key (x, cached x) n 0) (fun out => if out is inr r then f r.1 else 0) - mean_under target f|
    <= 2%:R * c * (1 - e) ^+ n + bias c / e.
Proof.
case=> e e01 [cv _]; exists e => // key x n f c fc.
have sk : size [seq split key i | i <- iota 0 n] = n by rewrite size_map size_iota.
have := cv [seq split key i | i <- iota 0 n] x f c fc; rewrite sk; congr (is_true (`|_ - _| <= _)).
rewrite tp_samplingE E_bind.
have lastE (S : Type) (Ks : Prog.key -> S -> prog S) keys s (h : S -> R) :
    E (visited Ks keys s) (fun l => h (last s l)) = E (after Ks keys s) h.
  elim: keys s => [|k keys IH] s //=; rewrite !E_bind; apply: eq_E => a; rewrite E_bind /=; exact: IH.
rewrite -lastE -(visited_next _ _ false (fun l => f (last (x, cached x) l).1)).
by apply: eq_E => l; rewrite /= (last_map (fun y : X * C * bool => y.1) l ((x, cached x), false)).
Qed.
End Loop.

(** Non-vacuity. *)
Lemma code_movers N : [/\ relabels (@barker_move N.+1), good_mover (@barker_move N.+1) & mixing_mover (@barker_move N.+1)].
Proof. by have [_ _ h _] := mixing_contracts N; split=> //; [exact: barker_rel|exact: barker_good]. Qed.
