(** * LimitTheory: limits of random programs that depend on an index (C65). *)
From Coq Require Import Reals Lra FunctionalExtensionality.
From mathcomp Require Import all_ssreflect all_algebra.
From Verif Require Import RInst Prog ProgTheory Resampling Spec ResamplingProofs KillingProofs.
From Verif Require Import LimitSpec.

Set Implicit Arguments.
Unset Strict Implicit.
Unset Printing Implicit Defensive.
Import GRing.Theory Num.Theory Order.TTheory.
Local Open Scope ring_scope.

(** ** Real sequences *)
Section Reals.
Implicit Types (u v : nat -> R) (a b : R).

Lemma lim_const a : lim (fun=> a) a.
Proof. by move=> e e0; exists 0%N => n _; rewrite /R_dist Rminus_eq_0 Rabs_R0. Qed.

Lemma lim_add u v a b : lim u a -> lim v b -> lim (fun n => u n + v n) (a + b).
Proof. exact: CV_plus. Qed.
Lemma lim_opp u a : lim u a -> lim (fun n => - u n) (- a).
Proof. exact: CV_opp. Qed.
Lemma lim_sub u v a b : lim u a -> lim v b -> lim (fun n => u n - v n) (a - b).
Proof. exact: CV_minus. Qed.
Lemma lim_mul u v a b : lim u a -> lim v b -> lim (fun n => u n * v n) (a * b).
Proof. exact: CV_mult. Qed.
Lemma lim_cont (f : R -> R) u a : continuity_pt f a -> lim u a -> lim (fun n => f (u n)) (f a).
Proof. exact: continuity_seq. Qed.
Lemma lim_exp u a : lim u a -> lim (fun n => exp (u n)) (exp a).
Proof. by apply: lim_cont; apply: derivable_continuous; exact: derivable_exp. Qed.
Lemma lim_sqrt u a : 0 <= a -> lim u a -> lim (fun n => sqrt (u n)) (sqrt a).
Proof. by move=> /RleE a0; apply: lim_cont; apply: continuity_pt_sqrt. Qed.

Lemma lim_ext u v a : u =1 v -> lim u a -> lim v a.
Proof. by move=> uv; rewrite (_ : v = u) //; apply: functional_extensionality => n; rewrite uv. Qed.
Lemma lim_eq u a b : lim u a -> a = b -> lim u b.
Proof. by move=> + <-. Qed.

Lemma lim_sum (I : finType) (P : pred I) (F : nat -> I -> R) (G : I -> R) :
  (forall i, P i -> lim (fun n => F n i) (G i)) -> lim (fun n => \sum_(i | P i) F n i) (\sum_(i | P i) G i).
Proof.
move=> H; elim: (index_enum I) => [|i s IH].
  by rewrite big_nil; apply: lim_ext (lim_const 0) => n; rewrite big_nil.
rewrite big_cons; case: ifP => Pi; last by apply: lim_ext IH => n; rewrite big_cons Pi.
by apply: lim_ext (lim_add (H i Pi) IH) => n; rewrite big_cons Pi.
Qed.

Lemma lim_prod (I : finType) (F : nat -> I -> R) (G : I -> R) :
  (forall i, lim (fun n => F n i) (G i)) -> lim (fun n => \prod_i F n i) (\prod_i G i).
Proof.
move=> H; elim: (index_enum I) => [|i s IH].
  by rewrite big_nil; apply: lim_ext (lim_const 1) => n; rewrite big_nil.
by rewrite big_cons; apply: lim_ext (lim_mul (H i) IH) => n; rewrite big_cons.
Qed.
End Reals.

(** Inverse, maximum, minimum. *)
Lemma lim_inv (u : nat -> R) (a : R) : a != 0 -> lim u a -> lim (fun n => (u n)^-1) a^-1.
Proof.
move=> /eqP a0; apply: (@lim_cont Rinv); apply: (continuity_pt_inv id) => //.
by apply: derivable_continuous_pt; exact: derivable_pt_id.
Qed.
Lemma lim_div u v (a b : R) : b != 0 -> lim u a -> lim v b -> lim (fun n => u n / v n) (a / b).
Proof. by move=> b0 h k; apply: lim_mul h (lim_inv b0 k). Qed.
Lemma lim_abs u (a : R) : lim u a -> lim (fun n => `|u n|) `|a|.
Proof. by apply: (@lim_cont Rabs); exact: Rcontinuity_abs. Qed.
Lemma max_abs (x y : R) : Num.max x y = (x + y + `|x - y|) * 2%:R^-1.
Proof. by case: (lerP x y) => _; toR; field. Qed.
Lemma min_abs (x y : R) : Num.min x y = (x + y - `|x - y|) * 2%:R^-1.
Proof. by case: (lerP x y) => _; toR; field. Qed.
Lemma lim_max u v (a b : R) : lim u a -> lim v b -> lim (fun n => Num.max (u n) (v n)) (Num.max a b).
Proof.
move=> h k; rewrite max_abs; apply: lim_ext (lim_mul (lim_add (lim_add h k) (lim_abs (lim_sub h k))) (lim_const _)) => n.
by rewrite max_abs.
Qed.
Lemma lim_min u v (a b : R) : lim u a -> lim v b -> lim (fun n => Num.min (u n) (v n)) (Num.min a b).
Proof.
move=> h k; rewrite min_abs; apply: lim_ext (lim_mul (lim_sub (lim_add h k) (lim_abs (lim_sub h k))) (lim_const _)) => n.
by rewrite min_abs.
Qed.

(** ** Programs
    [plim cv p q]: whenever [f n] at outcomes that converge in the sense of [cv] converges, so does
    the expectation. *)
Definition plim (A B : Type) (cv : (nat -> A) -> B -> Prop) (p : nat -> prog A) (q : prog B) : Prop :=
  forall (f : nat -> A -> R) (g : B -> R),
  (forall a b, cv a b -> lim (fun n => f n (a n)) (g b)) -> lim (fun n => E (p n) (f n)) (E q g).

Lemma plim_ret (A B : Type) (cv : (nat -> A) -> B -> Prop) a b : cv a b -> plim cv (fun n => Ret (a n)) (Ret b).
Proof. by move=> c f g; apply. Qed.

Lemma plim_bind (A B C D : Type) (cv : (nat -> A) -> B -> Prop) (cw : (nat -> C) -> D -> Prop) p q (k : nat -> A -> prog C) (h : B -> prog D) :
  plim cv p q -> (forall a b, cv a b -> plim cw (fun n => k n (a n)) (h b)) ->
  plim cw (fun n => bind (p n) (k n)) (bind q h).
Proof.
move=> pq kh f g fg; rewrite E_bind; apply: (lim_ext (u := fun n => E (p n) (fun a => E (k n a) (f n)))).
  by move=> n; rewrite E_bind.
by apply: pq => a b ab; apply: kh.
Qed.

Lemma plim_ext (A B : Type) (cv : (nat -> A) -> B -> Prop) p p' q : p =1 p' -> plim cv p q -> plim cv p' q.
Proof. by move=> e h f g fg; apply: lim_ext (h f g fg) => n; rewrite e. Qed.

Lemma plim_draw (A B : Type) (cv : (nat -> A) -> B -> Prop) (C : finType) (k : nat -> key) (k' : key)
    (p : nat -> C -> R) (q : C -> R) (f : nat -> C -> prog A) (h : C -> prog B) :
  (forall c, lim (fun n => p n c) (q c)) -> (forall c, plim cv (fun n => f n c) (h c)) ->
  plim cv (fun n => Draw (k n) C (p n) (f n)) (Draw k' C q h).
Proof. by move=> pq fh F G FG /=; apply: lim_sum => c _; apply: lim_mul (pq c) (fh c F G FG). Qed.

(** Constant outcomes. *)
Definition same (A : Type) (a : nat -> A) (b : A) : Prop := forall n, a n = b.
Definition pair_lim (A B C D : Type) (cv : (nat -> A) -> B -> Prop) (cw : (nat -> C) -> D -> Prop)
  (a : nat -> A * C) (b : B * D) : Prop := cv (fun n => (a n).1) b.1 /\ cw (fun n => (a n).2) b.2.
Fixpoint seq_lim (A B : Type) (cv : (nat -> A) -> B -> Prop) (a : nat -> seq A) (b : seq B) : Prop :=
  match b with
  | [::] => forall n, a n = [::]
  | y :: b' => exists x a', [/\ forall n, a n = x n :: a' n, cv x y & seq_lim cv a' b']
  end.

Section SeqLim.
Variables (A B : Type) (cv : (nat -> A) -> B -> Prop).

Lemma seq_lim_nil : seq_lim cv (fun=> [::]) [::]. Proof. by []. Qed.
Lemma seq_lim_cons x y a b : cv x y -> seq_lim cv a b -> seq_lim cv (fun n => x n :: a n) (y :: b).
Proof. by move=> xy ab; exists x, a. Qed.
Lemma seq_lim_ext a a' b : a =1 a' -> seq_lim cv a b -> seq_lim cv a' b.
Proof. by move=> e; rewrite (_ : a' = a) //; apply: functional_extensionality => n; rewrite e. Qed.
Lemma seq_lim_cat a b a' b' : seq_lim cv a b -> seq_lim cv a' b' -> seq_lim cv (fun n => a n ++ a' n) (b ++ b').
Proof.
elim: b a => [|y b IH] a /=; first by move=> e h; apply: seq_lim_ext h => n; rewrite e.
by case=> x [a1 [e xy ab]] h; exists x, (fun n => a1 n ++ a' n); split=> [n||]; rewrite ?e //; apply: IH.
Qed.
Lemma seq_lim_rev a b : seq_lim cv a b -> seq_lim cv (fun n => rev (a n)) (rev b).
Proof.
elim: b a => [|y b IH] a /=; first by move=> e n; rewrite e.
case=> x [a1 [e xy ab]]; rewrite rev_cons -cats1.
apply: (seq_lim_ext (a := fun n => rev (a1 n) ++ [:: x n])) => [n|]; first by rewrite e rev_cons cats1.
by apply: seq_lim_cat; [exact: IH|exists x, (fun=> [::])].
Qed.
Lemma seq_lim_behead a b : seq_lim cv a b -> seq_lim cv (fun n => behead (a n)) (behead b).
Proof.
case: b => [|y b] /=; first by move=> e n; rewrite e.
by case=> x [a1 [e xy ab]]; apply: seq_lim_ext ab => n; rewrite e.
Qed.
Lemma seq_lim_last x y a b : cv x y -> seq_lim cv a b -> cv (fun n => last (x n) (a n)) (last y b).
Proof.
elim: b x y a => [|z b IH] x y a xy /=.
  by move=> e; rewrite (_ : (fun n => _) = x) //; apply: functional_extensionality => n; rewrite e.
case=> x1 [a1 [e xz ab]]; rewrite (_ : (fun n => _) = (fun n => last (x1 n) (a1 n))); first exact: IH.
by apply: functional_extensionality => n; rewrite e.
Qed.
Lemma seq_lim_size a b n : seq_lim cv a b -> size (a n) = size b.
Proof.
elim: b a => [|y b IH] a /=; first by move=> ->.
by case=> x [a1 [-> _ /IH]] /= ->.
Qed.
End SeqLim.

Lemma seq_lim_map (A B C D : Type) (cv : (nat -> A) -> B -> Prop) (cw : (nat -> C) -> D -> Prop) (f : A -> C) (g : B -> D) a b :
  (forall x y, cv x y -> cw (fun n => f (x n)) (g y)) -> seq_lim cv a b -> seq_lim cw (fun n => map f (a n)) (map g b).
Proof.
move=> H; elim: b a => [|y b IH] a /=; first by move=> e n; rewrite e.
case=> x [a1 [e xy ab]]; exists (fun n => f (x n)), (fun n => map f (a1 n)).
by split=> [n||]; [rewrite e|exact: H|exact: IH].
Qed.

Lemma seq_lim_zip (A B C D : Type) (cv : (nat -> A) -> B -> Prop) (cw : (nat -> C) -> D -> Prop) a b c e :
  seq_lim cv a b -> seq_lim cw c e -> seq_lim (pair_lim cv cw) (fun n => zip (a n) (c n)) (zip b e).
Proof.
elim: b a c e => [|y b IH] a c e.
  by move=> ea _ /=; have -> : zip [::] e = [::] by [case: e]; move=> n; rewrite ea; case: (c n).
case=> x [a1 [ea xy ab]]; case: e => [|z e] /=; first by move=> ec n; rewrite ec; case: (a n).
case=> w [c1 [ec wz ce]]; exists (fun n => (x n, w n)), (fun n => zip (a1 n) (c1 n)).
by split=> [n||]; [rewrite ea ec|split|exact: IH].
Qed.

(** [scan]. *)
Lemma plim_scan (C C' I I' O O' : Type) (cC : (nat -> C) -> C' -> Prop) (cO : (nat -> O) -> O' -> Prop)
    (cI : (nat -> I) -> I' -> Prop) (body : nat -> C -> I -> prog (C * O)) (body' : C' -> I' -> prog (C' * O')) :
  (forall c c' i i', cC c c' -> cI i i' -> plim (pair_lim cC cO) (fun n => body n (c n) (i n)) (body' c' i')) ->
  forall ins ins' c c', seq_lim cI ins ins' -> cC c c' ->
  plim (pair_lim cC (seq_lim cO)) (fun n => scan (body n) (c n) (ins n)) (scan body' c' ins').
Proof.
move=> H ins ins'; elim: ins' ins => [|i' ins' IH] ins c c' /=.
  by move=> e cc; apply: (plim_ext (p := fun n => Ret (c n, [::]))) => [n|]; rewrite ?e //; apply: plim_ret.
case=> i [ins1 [e ii iis]] cc.
apply: (plim_ext (p := fun n => do (c', o) <- body n (c n) (i n); do (c'', os) <- scan (body n) c' (ins1 n); Ret (c'', o :: os))) => [n|]; first by rewrite e.
apply: (plim_bind (H _ _ _ _ cc ii)) => a [b o] [ab ao].
apply: (plim_ext (p := fun n => do r <- scan (body n) (a n).1 (ins1 n); Ret (r.1, (a n).2 :: r.2))) => [n|].
  by case: (a n) => a1 a2 /=; congr bind; apply: functional_extensionality => -[].
apply: (plim_bind (IH _ _ _ iis ab)) => r [c2 os] [rc ro].
by apply: plim_ret; split=> //; apply: seq_lim_cons.
Qed.

(** ** Weights, ancestors, final index *)
Lemma E_fin (A : finType) (m : prog A) f : E m f = \sum_a E m (fun x => (x == a)%:R) * f a.
Proof.
elim: m => [a|k B p g IH] /=.
  by rewrite (bigD1 a) //= eqxx mul1r big1 ?addr0 // => i ia; rewrite eq_sym (negbTE ia) mul0r.
under [RHS]eq_bigr do rewrite mulr_suml.
rewrite exchange_big /=; apply: eq_bigr => b _; rewrite IH mulr_sumr.
by apply: eq_bigr => a _; rewrite mulrA.
Qed.

Lemma plim_fin (A : finType) (p : nat -> prog A) (q : prog A) :
  (forall f, lim (fun n => E (p n) f) (E q f)) -> plim (@same A) p q.
Proof.
move=> H f g fg; rewrite E_fin; apply: (lim_ext (u := fun n => \sum_a E (p n) (fun x => (x == a)%:R) * f n a)).
  by move=> n; rewrite -E_fin.
by apply: lim_sum => a _; apply: lim_mul => //; apply: (fg (fun=> a)).
Qed.

Section Weights.
Variable n : nat.
Implicit Types (w : nat -> 'I_n -> R) (l : 'I_n -> R).

(** Log-weights matter up to a constant. *)
Definition lw_lim w l : Prop := exists c : nat -> R, forall i, lim (fun k => w k i + c k) (l i).

Lemma lw_lim_shift w l k : lw_lim w l -> lw_lim w (fun i => l i - k).
Proof. by case=> c H; exists (fun m => c m - k) => i; apply: lim_ext (lim_sub (H i) (lim_const k)) => m; rewrite addrA. Qed.
Lemma lw_lim_shiftl w l (k : nat -> R) : lw_lim w l -> lw_lim (fun m i => w m i - k m) l.
Proof. by case=> c H; exists (fun m => c m + k m) => i; apply: lim_ext (H i) => m; rewrite [c m + k m]addrC addrA subrK. Qed.
End Weights.

Section Normalize.
Variable n' : nat.
Local Notation n := n'.+1.
Implicit Types (w : nat -> 'I_n -> R) (l : 'I_n -> R).

Lemma sum_exp_gt0 l : 0 < \sum_i exp (l i).
Proof. by rewrite (bigD1 ord0) //= ltr_paddr ?expR_gt0 // sumr_ge0 // => i _; rewrite ltW ?expR_gt0. Qed.

Lemma normalize_lim w l : lw_lim w l -> positive_limit (fun k => normalize (w k)) (normalize l).
Proof.
case=> c H; split=> [k||i|i]; [exact: normalize_prob|exact: normalize_prob| |].
  by rewrite normalizeE divr_gt0 ?expR_gt0 ?sum_exp_gt0.
apply: (lim_ext (u := fun k => normalize (fun j => w k j + c k) i)); first by move=> k; rewrite normalize_shift.
rewrite normalizeE; apply: (lim_ext (u := fun k => exp (w k i + c k) / \sum_j exp (w k j + c k))); first by move=> k; rewrite normalizeE.
apply: lim_div; first by rewrite gt_eqF ?sum_exp_gt0.
  exact: lim_exp.
by apply: lim_sum => j _; apply: lim_exp.
Qed.

Lemma lim_cat_law w l i : \sum_j l j != 0 -> (forall i, lim (fun k => w k i) (l i)) -> lim (fun k => cat_law (w k) i) (cat_law l i).
Proof. by move=> l0 H; apply: lim_div => //; apply: lim_sum => j _. Qed.

Lemma prob_sum_nz l : prob_vec l -> \sum_j l j != 0.
Proof. by case=> _ ->; exact: oner_neq0. Qed.

(** The Gibbs choice of an index. *)
Lemma choice_lim k k' w l : positive_limit w l -> plim (@same _) (fun m => choice k (w m)) (choice k' l).
Proof. by case=> _ /prob_sum_nz l0 _ H; apply: plim_draw => [c|c]; [exact: lim_cat_law|exact: plim_ret]. Qed.

Lemma plim_lim (A : finType) (p : nat -> prog A) (q : prog A) f : plim (@same A) p q -> lim (fun m => E (p m) f) (E q f).
Proof.
by apply=> a b ab; apply: (lim_ext (u := fun=> f b)) => [m|]; [rewrite ab|exact: lim_const].
Qed.

Lemma choices_lim k k' w l : positive_limit w l -> plim (@same _) (fun m => choices k (w m)) (choices k' l).
Proof.
case=> _ /prob_sum_nz l0 _ H; apply: plim_draw => [A|A]; last exact: plim_ret.
by apply: lim_prod => i; exact: lim_cat_law.
Qed.

Lemma multinomial_cont : cont_resampler (@multinomial n).
Proof.
move=> k k' w l i j f pl; apply: plim_lim; apply: plim_bind (choices_lim k k' pl) _ => a b ab.
by apply: plim_ret => m; rewrite ab.
Qed.

Lemma barker_cont : cont_mover (@barker_move n).
Proof.
move=> k k' w l i f pl; rewrite /barker_move E_bind.
apply: (lim_ext (u := fun m => E (choice k (w m)) f)); first by move=> m; rewrite E_bind.
by apply: plim_lim; apply: choice_lim.
Qed.

(** Killing. *)
Lemma lim_amax w l : (forall i, lim (fun k => w k i) (l i)) -> lim (fun k => amax (w k)) (amax l).
Proof.
move=> H; rewrite /amax; elim: (index_enum _) => [|i s IH].
  by rewrite big_nil; apply: lim_ext (H ord0) => k; rewrite big_nil.
by rewrite big_cons; apply: lim_ext (lim_max (H i) IH) => k; rewrite big_cons.
Qed.

Lemma lim_surv w l i : positive_limit w l -> lim (fun k => surv (w k) i) (surv l i).
Proof.
by case=> _ pl _ H; apply: lim_div => //; [rewrite gt_eqF ?amax_gt0|exact: lim_amax].
Qed.

Lemma killing_cont : cont_resampler (@killing n').
Proof.
move=> k k' w l i j f pl; have [pw pl0 l0 wl] := pl; apply: plim_lim; rewrite /killing /killing_idx.
apply: (@plim_bind _ _ _ _ (@same _)) => [|a b ab].
  apply: (@plim_bind _ _ _ _ (@same _)) => [|a b ab].
    apply: plim_draw => c; last exact: plim_ret.
    apply: lim_prod => x; rewrite prob_lt_surv //.
    apply: (lim_ext (u := fun m => if c x then 1 - surv (w m) x else surv (w m) x)) => [m|]; first by rewrite prob_lt_surv.
    by case: (c x); [apply: lim_sub (lim_const _) _|]; exact: lim_surv.
  apply: (plim_bind (choices_lim _ _ pl)) => a2 b2 ab2.
  by apply: plim_ret => m; rewrite ab ab2.
apply: (@plim_bind _ _ _ _ (@same _)) => [|a2 b2 ab2]; last by apply: plim_ret => m; rewrite ab ab2.
apply: plim_draw => c; last exact: plim_ret.
apply: lim_cat_law; first by rewrite (proj2 (J_prob_prob pl0 i)) oner_neq0.
move=> x; have [->|xi] := eqVneq x i.
  rewrite J_prob_i //; apply: (lim_ext (u := fun m => ((amax (w m))^-1 + (1 - surv (w m) i)) / n%:R)) => [m|]; first by rewrite J_prob_i.
  apply: lim_mul (lim_const _); apply: lim_add; last by apply: lim_sub (lim_const _) _; exact: lim_surv.
  by apply: lim_inv; [rewrite gt_eqF ?amax_gt0|exact: lim_amax].
rewrite J_prob_other //; apply: (lim_ext (u := fun m => (1 - surv (w m) x) / n%:R)) => [m|]; first by rewrite J_prob_other.
by apply: lim_mul (lim_const _); apply: lim_sub (lim_const _) _; exact: lim_surv.
Qed.
End Normalize.
