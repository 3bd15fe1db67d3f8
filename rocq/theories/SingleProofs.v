(** * SingleProofs: the single-trajectory kernels (C30-C33). *)
From Coq Require Import Reals Lra FunctionalExtensionality.
From mathcomp Require Import all_ssreflect all_algebra fingroup perm.
From Verif Require Import RInst Prog ProgTheory Resampling Spec ResamplingProofs MoveProofs.
From Verif Require Import CsmcInvariance AuxProofs TpProofs Single SingleSpec.

Set Implicit Arguments.
Unset Strict Implicit.
Unset Printing Implicit Defensive.
Import GRing.Theory Num.Theory Order.TTheory.
Local Open Scope ring_scope.

Lemma self_normaliseE n' (lw : 'I_n'.+1 -> R) : self_normalise lw = normalize lw.
Proof.
apply: functional_extensionality => i; rewrite normalizeE /self_normalise.
move: (amax lw) => m; under eq_bigr do rewrite expRB.
rewrite -mulr_suml expRB invfM invrK mulrACA mulVf ?mulr1 //; exact: expR_neq0.
Qed.

(** ** Relabelling *)
Section Relabel.
Variable n : nat.
Variables (w : 'I_n -> R) (s : 'I_n -> 'I_n).
Hypothesis bs : bijective s.

Lemma sum_relabel (f : 'I_n -> R) : \sum_i f (s i) = \sum_i f i.
Proof. by rewrite [RHS](reindex s) //; exact: onW_bij. Qed.

Lemma cat_law_relabel i : cat_law (fun i => w (s i)) i = cat_law w (s i).
Proof. by rewrite /cat_law sum_relabel. Qed.

Lemma barker_relabels key k (f : 'I_n -> R) :
  E (barker_move key (fun i => w (s i)) k) (fun r => f (s r.1)) = E (barker_move key w (s k)) (fun r => f r.1).
Proof.
rewrite /barker_move !E_bind !E_draw -[RHS]sum_relabel; apply: eq_bigr => i _.
by rewrite cat_law_relabel.
Qed.

Lemma force_rest_relabel k i : force_rest (fun i => w (s i)) k i = force_rest w (s k) (s i).
Proof. by rewrite /force_rest /updR; case: ifP => _ //; rewrite (inj_eq (bij_inj bs)). Qed.

Lemma force_relabels key k (f : 'I_n -> R) :
  E (force_move key (fun i => w (s i)) k) (fun r => f (s r.1)) = E (force_move key w (s k)) (fun r => f r.1).
Proof.
rewrite /force_move !E_bind !E_draw -[RHS]sum_relabel; apply: eq_bigr => i _.
rewrite !E_bind !E_draw; congr (_ * _).
  by rewrite /cat_law force_rest_relabel; congr (_ / _); rewrite -[RHS]sum_relabel; apply: eq_bigr => j _; rewrite force_rest_relabel.
by apply: eq_bigr => -[] _.
Qed.
End Relabel.

(** ** Selection of one particle from an exchangeable population *)
Section Core.
Variables (X : finType) (n' : nat).
Local Notation n := n'.+1.
Local Notation pop := {ffun 'I_n -> X}.
Variables (mv : mover n) (key : key).
Hypothesis mv_rel : relabels mv.
Variables (A : pop -> 'I_n -> R) (W : pop -> 'I_n -> R) (S : pop -> R).
Definition relab (s : 'I_n -> 'I_n) (x : pop) : pop := [ffun i => x (s i)].
Hypothesis A_rel : forall s x i, bijective s -> A (relab s x) i = A x (s i).
Hypothesis AW : forall x i, A x i = S x * exp (W x i).
Hypothesis S0 : forall x, 0 <= S x.

Lemma W_rel s x : bijective s -> S x != 0 -> normalize (W (relab s x)) = fun i => normalize (W x) (s i).
Proof.
move=> bs Sx; apply: functional_extensionality => i.
have H j : S (relab s x) * exp (W (relab s x) j) = S x * exp (W x (s j)) by rewrite -!AW A_rel.
have S'x : S (relab s x) != 0.
  apply/eqP => e; have := H i; rewrite e mul0r => /esym/eqP; apply/negP.
  by rewrite mulf_neq0 // expR_neq0.
rewrite !normalizeE -(sum_relabel bs (fun j => exp (W x j))).
have H' j : exp (W (relab s x) j) = S x / S (relab s x) * exp (W x (s j)).
  by rewrite mulrAC -H mulrAC divff // mul1r.
rewrite H' (eq_bigr _ (fun j _ => H' j)) -mulr_sumr invfM mulrACA divff ?mul1r //.
by rewrite mulf_neq0 // invr_eq0.
Qed.

Definition one (h : X -> X -> R) : R :=
  \sum_x A x ord0 * E (mv key (normalize (W x)) ord0) (fun r => h (x ord0) (x r.1)).

Lemma relab_invol (k : 'I_n) : involutive (relab (tperm ord0 k)).
Proof. by move=> x; apply/ffunP => i; rewrite !ffunE tpermK. Qed.

Lemma one_at h k :
  one h = \sum_x A x k * E (mv key (normalize (W x)) k) (fun r => h (x k) (x r.1)).
Proof.
pose s := tperm ord0 k; have bs : bijective s by exists (s^-1)%g; [exact: permK|exact: permKV].
rewrite [RHS](reindex (relab s)); last by apply: onW_bij; exists (relab s); exact: relab_invol.
apply: eq_bigr => x _; rewrite A_rel // tpermR.
have [Sx|Sx] := eqVneq (S x) 0; first by rewrite AW Sx !mul0r.
rewrite W_rel //; congr (_ * _).
have := mv_rel key (normalize (W x)) k (fun i => h (x ord0) (x i)) bs; rewrite tpermR => <-.
by apply: eq_E => r; rewrite !ffunE tpermR.
Qed.

Definition tot (x : pop) : R := S x * \sum_i exp (W x i).
Lemma tot_ge0 x : 0 <= tot x.
Proof. by rewrite mulr_ge0 // ltW // sum_exp_gt0. Qed.

Lemma A_tot x k : A x k = tot x * normalize (W x) k.
Proof.
rewrite AW normalizeE /tot -mulrA; congr (_ * _).
by rewrite mulrCA divff ?mulr1 // lt0r_neq0 // sum_exp_gt0.
Qed.

(** Averaged over the position of the current state. *)
Lemma one_avg h : one h *+ n = \sum_x tot x *
  \sum_k normalize (W x) k * E (mv key (normalize (W x)) k) (fun r => h (x k) (x r.1)).
Proof.
rewrite -{1}(card_ord n) -sumr_const (eq_bigr _ (fun k _ => one_at h k)) exchange_big /=.
by apply: eq_bigr => x _; rewrite mulr_sumr; apply: eq_bigr => k _; rewrite A_tot mulrA.
Qed.

Definition cur (f : X -> R) : R := \sum_x A x ord0 * f (x ord0).
Lemma cur_avg f : cur f *+ n = \sum_x tot x * \sum_k normalize (W x) k * f (x k).
Proof.
have H k : cur f = \sum_x A x k * f (x k).
  pose s := tperm ord0 k; have bs : bijective s by exists (s^-1)%g; [exact: permK|exact: permKV].
  rewrite [RHS](reindex (relab s)); last by apply: onW_bij; exists (relab s); exact: relab_invol.
  by apply: eq_bigr => x _; rewrite A_rel // tpermR ffunE tpermR.
rewrite -{1}(card_ord n) -sumr_const (eq_bigr _ (fun k _ => H k)) exchange_big /=.
by apply: eq_bigr => x _; rewrite mulr_sumr; apply: eq_bigr => k _; rewrite A_tot mulrA.
Qed.

Lemma n_gt0 : 0 < n%:R :> R. Proof. by rewrite ltr0n. Qed.

Lemma one_invariant f : good_mover mv -> one (fun _ y => f y) = cur f.
Proof.
move=> gm; apply: (@mulIf _ n%:R); first by rewrite lt0r_neq0 // n_gt0.
rewrite !mulr_natr one_avg cur_avg; apply: eq_bigr => x _; congr (_ * _).
exact: (gm _ _ (normalize_prob (W x)) (fun k => f (x k))).
Qed.

Lemma one_near f c eps :
  (forall w (g : 'I_n -> R), prob_vec w -> (forall k, `|g k| <= c) ->
    `|\sum_k w k * E (mv key w k) (fun r => g r.1) - \sum_k w k * g k| <= eps) ->
  (forall x, `|f x| <= c) ->
  `|one (fun _ y => f y) - cur f| <= cur (fun=> eps).
Proof.
move=> H fc; rewrite -(ler_pmuln2r (ltn0Sn n')) -normrMn mulrnBl one_avg !cur_avg -sumrB.
apply: (le_trans (ler_norm_sum _ _ _)); apply: ler_sum => x _.
rewrite -mulrBr normrM (ger0_norm (tot_ge0 x)); apply: ler_wpmul2l; first exact: tot_ge0.
rewrite -mulr_suml normalize_sum mul1r.
by apply: (H _ (fun k => f (x k))) => //; exact: normalize_prob.
Qed.

Lemma E_mass_mv w k (g : 'I_n -> R) :
  E (mv key w k) (fun r => g r.1) = \sum_j Pr (mv key w k) (fun r => r.1 == j) * g j.
Proof.
rewrite -[LHS](E_index_of mv key w k) E_mass; apply: eq_bigr => j _.
by rewrite /Pr E_index_of.
Qed.

Lemma one_reversible h :
  (forall x k l, normalize (W x) k * Pr (mv key (normalize (W x)) k) (fun r => r.1 == l)
               = normalize (W x) l * Pr (mv key (normalize (W x)) l) (fun r => r.1 == k)) ->
  one h = one (fun x y => h y x).
Proof.
move=> rev; apply: (@mulIf _ n%:R); first by rewrite lt0r_neq0 // n_gt0.
rewrite !mulr_natr !one_avg; apply: eq_bigr => x _; congr (_ * _).
under eq_bigr => k _ do rewrite (E_mass_mv _ _ (fun i => h (x k) (x i))) mulr_sumr.
under [RHS]eq_bigr => k _ do rewrite (E_mass_mv _ _ (fun i => h (x i) (x k))) mulr_sumr.
rewrite exchange_big /=; apply: eq_bigr => k _; apply: eq_bigr => l _.
by rewrite !mulrA rev.
Qed.
End Core.

(** ** Populations with the current state in front *)
Section Front.
Variables (X : finType) (N : nat).
Local Notation pop := {ffun 'I_N.+1 -> X}.
Definition front (x : X) (y : {ffun 'I_N -> X}) : pop := [ffun i => insert0 x y i].

Lemma front0 x y : front x y ord0 = x.
Proof. by rewrite ffunE /insert0 unlift_none. Qed.
Lemma frontS x y j : front x y (lift ord0 j) = y j.
Proof. by rewrite ffunE /insert0 liftK. Qed.

Lemma insert0_map (Y : Type) (g : X -> Y) x (y : {ffun 'I_N -> X}) : insert0 (g x) (fun j => g (y j)) =1 (fun i => g (front x y i)).
Proof. by move=> i; rewrite ffunE /insert0; case: unlift. Qed.

Lemma sum_front (F : pop -> R) : \sum_x \sum_y F (front x y) = \sum_z F z.
Proof.
rewrite pair_big /= (reindex (fun p => front p.1 p.2)) //=.
exists (fun z => (z ord0, [ffun j => z (lift ord0 j)])) => [[x y] _|z _].
  by congr pair; [exact: front0|apply/ffunP => j; rewrite ffunE frontS].
apply/ffunP => i; rewrite ffunE /insert0; case: unliftP => [j ->|->] //=; by rewrite ffunE.
Qed.

Lemma prod_front (g : X -> R) x y : \prod_(i | i != ord0) g (front x y i) = \prod_j g (y j).
Proof.
rewrite big_mkcond big_ord_recl eqxx /= mul1r; apply: eq_bigr => j _.
by rewrite frontS.
Qed.

Lemma prod_relab (g : X -> R) s (x : pop) i : bijective s ->
  \prod_(j | j != i) g (relab s x j) = \prod_(j | j != s i) g (x j).
Proof.
move=> bs; rewrite [RHS](reindex s); last exact: onW_bij.
by apply: eq_big => j; rewrite ?(inj_eq (bij_inj bs)) ?ffunE.
Qed.
End Front.

(** ** Kernels that select among the current state and proposals *)
Section Multi.
Variables (X U : finType) (N : nat).
Local Notation n := N.+1.
Local Notation pop := {ffun 'I_n -> X}.
Variables (mv : mover n) (kc : key) (K : X -> prog X) (target : X -> R).
(** Law of auxiliary variable and proposals. *)
Variable L : X -> U -> {ffun 'I_N -> X} -> R.
Variables (A : U -> pop -> 'I_n -> R) (W : U -> pop -> 'I_n -> R) (S : U -> pop -> R).
Hypothesis mv_rel : relabels mv.
Hypothesis KE : forall x f, E (K x) f
  = \sum_u \sum_y L x u y * E (mv kc (normalize (W u (front x y))) ord0) (fun r => f (front x y r.1)).
Hypothesis L1 : forall x, \sum_u \sum_y L x u y = 1.
Hypothesis AL : forall x u y, A u (front x y) ord0 = target x * L x u y.
Hypothesis A_rel : forall u s x i, bijective s -> A u (relab s x) i = A u x (s i).
Hypothesis AW : forall u x i, A u x i = S u x * exp (W u x i).
Hypothesis S0 : forall u x, 0 <= S u x.

Lemma sum_one h : \sum_x target x * E (K x) (h x) = \sum_u one mv kc (A u) (W u) h.
Proof.
under eq_bigr => x _ do rewrite KE mulr_sumr.
rewrite exchange_big; apply: eq_bigr => u _ /=; rewrite /one -sum_front.
by apply: eq_bigr => x _; rewrite mulr_sumr; apply: eq_bigr => y _; rewrite AL front0 mulrA.
Qed.

Lemma sum_cur f : \sum_x target x * f x = \sum_u cur (A u) f.
Proof.
transitivity (\sum_x \sum_u \sum_y target x * L x u y * f x).
  apply: eq_bigr => x _; rewrite -{1}[target x]mulr1 -(L1 x) mulr_sumr mulr_suml; apply: eq_bigr => u _.
  by rewrite mulr_sumr mulr_suml.
rewrite exchange_big; apply: eq_bigr => u _ /=; rewrite /cur -sum_front.
by apply: eq_bigr => x _; apply: eq_bigr => y _; rewrite AL front0.
Qed.

Lemma multi_keeps : good_mover mv -> keeps_target target K.
Proof.
move=> gm f; rewrite (sum_one (fun _ => f)) sum_cur; apply: eq_bigr => u _.
by apply: (@one_invariant _ _ mv kc mv_rel (A u) (W u) (S u)); auto.
Qed.

Lemma multi_near c eps :
  (forall w (g : 'I_n -> R), prob_vec w -> (forall k, `|g k| <= c) ->
    `|\sum_k w k * E (mv kc w k) (fun r => g r.1) - \sum_k w k * g k| <= eps) ->
  nearly_keeps_target target K c eps.
Proof.
move=> H f fc; rewrite (sum_one (fun _ => f)) !sum_cur -sumrB.
apply: (le_trans (ler_norm_sum _ _ _)); apply: ler_sum => u _.
by apply: (@one_near _ _ mv kc mv_rel (A u) (W u) (S u)); auto.
Qed.

Lemma multi_reversible :
  (forall u x k l, normalize (W u x) k * Pr (mv kc (normalize (W u x)) k) (fun r => r.1 == l)
               = normalize (W u x) l * Pr (mv kc (normalize (W u x)) l) (fun r => r.1 == k)) ->
  reversible_kernel target K.
Proof.
move=> H h; rewrite (sum_one h) (sum_one (fun x y => h y x)); apply: eq_bigr => u _.
by apply: (@one_reversible _ _ mv kc mv_rel (A u) (W u) (S u)); auto.
Qed.
End Multi.

(** A mover that is reversible for every probability vector. *)
Definition reversible_mover (n : nat) (mv : mover n) : Prop :=
  forall key w k l, prob_vec w ->
    w k * Pr (mv key w k) (fun r => r.1 == l) = w l * Pr (mv key w l) (fun r => r.1 == k).

Lemma E_select (Y : Type) n' (mv : mover n'.+1) key lw (pay : 'I_n'.+1 -> Y) f :
  E (select mv key lw pay) f = E (mv key (normalize lw) ord0) (fun r => f (pay r.1, r.1 != ord0)).
Proof. by rewrite /select self_normaliseE E_bind. Qed.

Section Kernels.
Variables (X : finZmodType) (N : nat).
Local Notation pop := {ffun 'I_N.+1 -> X}.
Variables (log_pdf : X -> R) (grad : X -> X) (noise ld : X -> R) (scale : X -> X).
Variable log_H : pop -> X -> X -> R.
Variable mv : mover N.+1.
Hypothesis noiseP : prob_vec noise.
Hypothesis mv_rel : relabels mv.

Definition at_pos (B : Type) (m : prog ((X * R * X) * B)) : prog X := do r <- m; Ret r.1.1.1.
Local Notation mala := (fun key aux x => at_pos (mala_kernel log_pdf grad noise ld scale log_H mv key aux (tp1_init log_pdf grad x))).

Definition mW (aux : bool) (u : X) (z : pop) : 'I_N.+1 -> R :=
  if aux then fun i => log_pdf (z i) + ld (u - z i - scale (grad (z i))) - ld (u - z i)
  else fun i => log_pdf (z i) + log_H z (z i) (scale (grad (z i))).

Definition mL (x u : X) (y : {ffun 'I_N -> X}) : R := noise (u - (x + scale (grad x))) * \prod_j noise (y j - u).

Lemma sum_eps (u : X) (g : {ffun 'I_N -> X} -> R) :
  \sum_(e : {ffun 'I_N -> X}) noises noise e * g [ffun j => u + e j] = \sum_(y : {ffun 'I_N -> X}) (\prod_j noise (y j - u)) * g y.
Proof.
rewrite [RHS](reindex (fun e : {ffun 'I_N -> X} => [ffun j => u + e j])).
  by apply: eq_bigr => e _; congr (_ * _); apply: eq_bigr => j _; rewrite ffunE addrC addKr.
exists (fun y : {ffun 'I_N -> X} => [ffun j => y j - u]) => y _; apply/ffunP => j; rewrite !ffunE.
  by rewrite addrC addKr.
by rewrite addrC subrK.
Qed.

Lemma mala_joint key aux x (f : X -> bool -> R) :
  E (mala_kernel log_pdf grad noise ld scale log_H mv key aux (tp1_init log_pdf grad x)) (fun r => f r.1.1.1 r.2)
  = \sum_u \sum_y mL x u y * E (mv (split key 1) (normalize (mW aux u (front x y))) ord0) (fun r => f (front x y r.1) (r.1 != ord0)).
Proof.
rewrite /mala_kernel /mala_run E_bind E_draw /=.
pose G u := \sum_(y : {ffun 'I_N -> X}) (\prod_j noise (y j - u)) * E (mv (split key 1) (normalize (mW aux u (front x y))) ord0) (fun r => f (front x y r.1) (r.1 != ord0)).
transitivity (\sum_e noise e * G (x + scale (grad x) + e)).
  apply: eq_bigr => e _; congr (_ * _); move: (x + _ + e) => u.
  rewrite /G -(sum_eps u (fun y => E (mv (split key 1) (normalize (mW aux u (front x y))) ord0) (fun r => f (front x y r.1) (r.1 != ord0)))).
  apply: eq_bigr => eps _; congr (_ * _); rewrite -/(E _ _) E_select.
  have eF : [ffun i => insert0 x (fun j => u + eps j) i] = front x [ffun j => u + eps j].
    by apply/ffunP => i; rewrite !ffunE /insert0; case: unlift => [j|] //; rewrite ffunE.
  rewrite eF; congr (E (mv _ (normalize _) _) _).
  apply: functional_extensionality => i; rewrite /mala_log_weights /mW.
  have e1 : insert0 (log_pdf x) (fun j => log_pdf (u + eps j)) i = log_pdf (front x [ffun j => u + eps j] i).
    by rewrite !ffunE /insert0; case: unlift => [j|] //; rewrite ffunE.
  have e2 : [ffun i => insert0 (grad x) (fun j => grad (u + eps j)) i] i = grad (front x [ffun j => u + eps j] i).
    by rewrite !ffunE /insert0; case: unlift => [j|] //; rewrite ffunE.
  by case: (aux); rewrite e1 e2.
rewrite (sum_shift noise (x + scale (grad x)) G); apply: eq_bigr => u _.
by rewrite mulr_sumr; apply: eq_bigr => y _; rewrite mulrA.
Qed.

Lemma mala_law key aux x f : E (mala key aux x) f
  = \sum_u \sum_y mL x u y * E (mv (split key 1) (normalize (mW aux u (front x y))) ord0) (fun r => f (front x y r.1)).
Proof. by rewrite E_bind -(mala_joint key aux x (fun y _ => f y)). Qed.

Lemma mL1 x : \sum_u \sum_y mL x u y = 1.
Proof.
rewrite -(proj2 (shift_vec (x + scale (grad x)) noiseP)); apply: eq_bigr => u _.
rewrite -mulr_sumr (sum_prod_ffun (fun _ z => noise (z - u))) /= big1 ?mulr1 // => j _.
exact: (proj2 (shift_vec u noiseP)).
Qed.

(** *** Auxiliary style *)
Section Aux.
Hypothesis even : forall z, noise (- z) = noise z.
Hypothesis ldE : exists c, c != 0 /\ forall z, exp (ld z) = c * noise z.

Definition mA (u : X) (z : pop) (i : 'I_N.+1) : R :=
  exp (log_pdf (z i)) * noise (u - (z i + scale (grad (z i)))) * \prod_(j | j != i) noise (z j - u).
Definition mS (u : X) (z : pop) : R := \prod_j noise (z j - u).

Lemma mAL x u y : mA u (front x y) ord0 = exp (log_pdf x) * mL x u y.
Proof. by rewrite /mA /mL front0 (prod_front (fun z => noise (z - u))) mulrA. Qed.

Lemma mA_rel u s x i : bijective s -> mA u (relab s x) i = mA u x (s i).
Proof. by move=> bs; rewrite /mA (prod_relab (fun z => noise (z - u))) // ffunE. Qed.

Lemma mAW u x i : mA u x i = mS u x * exp (mW true u x i).
Proof.
have [c [c0 H]] := ldE.
have nz z : noise z != 0.
  by apply/eqP => e; have := H z; rewrite e mulr0 => /eqP; rewrite (negbTE (expR_neq0 _)).
rewrite /mA /mS /mW [in RHS](bigD1 i) //= expRB expRD !H -[x i - u]opprB even.
have -> : u - x i - scale (grad (x i)) = u - (x i + scale (grad (x i))) by rewrite opprD addrA.
rewrite invfM; have := nz (u - x i); move: (noise _) (noise _) (exp _) (\prod_(_ | _) _) => a b e p a0.
have := mulfV a0; have := mulfV c0; move: a^-1 c^-1 => a' c' hc ha.
by rewrite -[LHS]mulr1 -hc -[LHS]mulr1 -ha; Rring.
Qed.

Lemma mS0 u x : 0 <= mS u x.
Proof. by apply: prodr_ge0 => j _; exact: (proj1 noiseP). Qed.

Lemma mala_aux_keeps key : good_mover mv -> keeps_target (fun x => exp (log_pdf x)) (mala key true).
Proof. exact: (multi_keeps mv_rel (mala_law key true) mL1 mAL mA_rel mAW). Qed.

Lemma mala_aux_near key c eps :
  (forall key w (g : 'I_N.+1 -> R), prob_vec w -> (forall k, `|g k| <= c) ->
    `|\sum_k w k * E (mv key w k) (fun r => g r.1) - \sum_k w k * g k| <= eps) ->
  nearly_keeps_target (fun x => exp (log_pdf x)) (mala key true) c eps.
Proof. by move=> H; apply: (multi_near mv_rel (mala_law key true) mL1 mAL mA_rel mAW mS0); auto. Qed.

Lemma mala_aux_rev key : reversible_mover mv -> reversible_kernel (fun x => exp (log_pdf x)) (mala key true).
Proof.
move=> rv; apply: (multi_reversible mv_rel (mala_law key true) mAL mA_rel mAW) => u x k l.
by apply: rv; exact: normalize_prob.
Qed.
End Aux.

(** *** Marginal style *)
Section Marg.
Hypothesis logHE : exists S : pop -> R, forall (x : pop) b phi,
  \sum_u noise (u - (x b + phi)) * \prod_(i | i != b) noise (x i - u) = S x * exp (log_H x (x b) phi).

Definition nA (u : unit) (z : pop) (i : 'I_N.+1) : R := \sum_u mA u z i.
Definition nL (x : X) (t : unit) (y : {ffun 'I_N -> X}) : R := \sum_u mL x u y.
Definition nW (t : unit) : pop -> 'I_N.+1 -> R := mW false 0.

Lemma sum_unit (F : unit -> R) : \sum_t F t = F tt.
Proof. by rewrite (bigD1 tt) //= big1 ?addr0 // => -[]. Qed.

Lemma mala_marg_law key x f : E (mala key false x) f
  = \sum_t \sum_y nL x t y * E (mv (split key 1) (normalize (nW t (front x y))) ord0) (fun r => f (front x y r.1)).
Proof. by rewrite sum_unit mala_law exchange_big; apply: eq_bigr => y _ /=; rewrite /nL mulr_suml. Qed.

Lemma nL1 x : \sum_t \sum_y nL x t y = 1.
Proof. by rewrite sum_unit -(mL1 x) [RHS]exchange_big. Qed.

Lemma nAL x t y : nA t (front x y) ord0 = exp (log_pdf x) * nL x t y.
Proof. by rewrite /nA /nL mulr_sumr; apply: eq_bigr => u _; exact: mAL. Qed.

Lemma nA_rel t s x i : bijective s -> nA t (relab s x) i = nA t x (s i).
Proof. by move=> bs; apply: eq_bigr => u _; exact: mA_rel. Qed.

Lemma nAW : exists S : unit -> pop -> R, (forall t x, 0 <= S t x) /\ forall t x i, nA t x i = S t x * exp (nW t x i).
Proof.
have [S H] := logHE; exists (fun=> S); split=> [t x|t x i].
  have := H x ord0 0; have := expR_gt0 (log_H x (x ord0) 0); move: (exp _) => e e0 h.
  rewrite -(pmulr_lge0 _ e0) -h; apply: sumr_ge0 => u _; apply: mulr_ge0; first exact: (proj1 noiseP).
  by apply: prodr_ge0 => j _; exact: (proj1 noiseP).
rewrite /nA /nW /mW expRD mulrCA -H mulr_sumr; apply: eq_bigr => u _; by rewrite /mA mulrA.
Qed.

Lemma mala_marg_keeps key : good_mover mv -> keeps_target (fun x => exp (log_pdf x)) (mala key false).
Proof. have [S [S0 H]] := nAW; exact: (multi_keeps mv_rel (mala_marg_law key) nL1 nAL nA_rel H). Qed.

Lemma mala_marg_near key c eps :
  (forall key w (g : 'I_N.+1 -> R), prob_vec w -> (forall k, `|g k| <= c) ->
    `|\sum_k w k * E (mv key w k) (fun r => g r.1) - \sum_k w k * g k| <= eps) ->
  nearly_keeps_target (fun x => exp (log_pdf x)) (mala key false) c eps.
Proof. by move=> Hm; have [S [S0 H]] := nAW; apply: (multi_near mv_rel (mala_marg_law key) nL1 nAL nA_rel H S0); auto. Qed.

Lemma mala_marg_rev key : reversible_mover mv -> reversible_kernel (fun x => exp (log_pdf x)) (mala key false).
Proof.
move=> rv; have [S [S0 H]] := nAW; apply: (multi_reversible mv_rel (mala_marg_law key) nAL nA_rel H) => u x k l.
by apply: rv; exact: normalize_prob.
Qed.
End Marg.

(** ** tp.py *)
Section Tp1.
Variables (corr : X -> X -> X -> R) (post_sampling : key -> X -> prog {ffun 'I_N -> X}).
Variables (prior : X -> R) (post : X -> X -> R).
Hypothesis prior0 : forall x, 0 <= prior x.
Hypothesis postP : forall u, prob_vec (post u).
Hypothesis postS : forall key u, samples_indep (post_sampling key u) (fun _ => post u).
Hypothesis postE : forall u, exists Z, forall x, prior x * noise (u - x) = Z * post u x.
Hypothesis corrE : forall u x g, noise (u - x) * exp (corr u x g) = noise (u - (x + scale g)).
Local Notation tp1 := (fun key x => at_pos (tp1_kernel log_pdf grad noise scale mv corr post_sampling key (tp1_init log_pdf grad x))).

Definition tW (u : X) (z : pop) : 'I_N.+1 -> R := fun i => log_pdf (z i) + corr u (z i) (grad (z i)).
Definition tL (x u : X) (y : {ffun 'I_N -> X}) : R := noise (u - (x + scale (grad x))) * \prod_j post u (y j).

Lemma tp1_joint key x (f : X -> bool -> R) :
  E (tp1_kernel log_pdf grad noise scale mv corr post_sampling key (tp1_init log_pdf grad x)) (fun r => f r.1.1.1 r.2)
  = \sum_u \sum_y tL x u y * E (mv (split key 1) (normalize (tW u (front x y))) ord0) (fun r => f (front x y r.1) (r.1 != ord0)).
Proof.
rewrite /tp1_kernel /tp1_run E_bind E_draw.
pose G u := \sum_(y : {ffun 'I_N -> X}) (\prod_j post u (y j)) * E (mv (split key 1) (normalize (tW u (front x y))) ord0) (fun r => f (front x y r.1) (r.1 != ord0)).
pose body u := do y <- post_sampling (split key 0) u; select mv (split key 1)
  (fun i => insert0 (log_pdf x) (fun j => log_pdf (y j)) i
     + corr u ([ffun i => insert0 x y i] i) ([ffun i => insert0 (grad x) (fun j => grad (y j)) i] i))
  (fun i => ([ffun i => insert0 x y i] i, insert0 (log_pdf x) (fun j => log_pdf (y j)) i,
             [ffun i => insert0 (grad x) (fun j => grad (y j)) i] i)).
transitivity (\sum_e noise e * E (body (x + scale (grad x) + e)) (fun r => f r.1.1.1 r.2)); first by [].
transitivity (\sum_e noise e * G (x + scale (grad x) + e)).
  apply: eq_bigr => e _; congr (_ * _); move: (x + _ + e) => u.
  have [_ _ ps] := postS (split key 0) u.
  rewrite /body [LHS]E_bind ps /G; apply: eq_bigr => y _; congr (_ * _).
  rewrite [LHS]E_select /=.
  congr (E (mv _ (normalize _) _) _).
  apply: functional_extensionality => i; rewrite /tW; congr (_ + corr _ _ _).
    by rewrite (insert0_map log_pdf).
  by rewrite ffunE (insert0_map grad).
rewrite (sum_shift noise (x + scale (grad x)) G); apply: eq_bigr => u _.
by rewrite mulr_sumr; apply: eq_bigr => y _; rewrite mulrA.
Qed.

Lemma tp1_law key x f : E (tp1 key x) f
  = \sum_u \sum_y tL x u y * E (mv (split key 1) (normalize (tW u (front x y))) ord0) (fun r => f (front x y r.1)).
Proof. by rewrite E_bind -(tp1_joint key x (fun y _ => f y)). Qed.

Lemma tL1 x : \sum_u \sum_y tL x u y = 1.
Proof.
rewrite -(proj2 (shift_vec (x + scale (grad x)) noiseP)); apply: eq_bigr => u _.
rewrite -mulr_sumr (sum_prod_ffun (fun _ z => post u z)) /= big1 ?mulr1 // => j _.
exact: (proj2 (postP u)).
Qed.

Definition tA (u : X) (z : pop) (i : 'I_N.+1) : R :=
  prior (z i) * exp (log_pdf (z i)) * noise (u - (z i + scale (grad (z i)))) * \prod_(j | j != i) post u (z j).
Definition tZ (u : X) : R := \sum_x prior x * noise (u - x).
Definition tS (u : X) (z : pop) : R := tZ u * \prod_j post u (z j).

Lemma tAL x u y : tA u (front x y) ord0 = prior x * exp (log_pdf x) * tL x u y.
Proof. by rewrite /tA /tL front0 (prod_front (post u)) mulrA. Qed.

Lemma tA_rel u s x i : bijective s -> tA u (relab s x) i = tA u x (s i).
Proof. by move=> bs; rewrite /tA (prod_relab (post u)) // ffunE. Qed.

Lemma tZE u x : prior x * noise (u - x) = tZ u * post u x.
Proof.
have [Z H] := postE u; rewrite H; congr (_ * _).
by rewrite /tZ (eq_bigr _ (fun x _ => H x)) -mulr_sumr (proj2 (postP u)) mulr1.
Qed.

Lemma tAW u x i : tA u x i = tS u x * exp (tW u x i).
Proof.
rewrite /tA /tS /tW [in RHS](bigD1 i) //= expRD -corrE.
have := tZE u (x i); move: (noise _) (post u (x i)) (exp _) (exp _) (\prod_(_ | _) _) => a q e1 e2 p h.
by rewrite [RHS]mulrA -mulrA mulrACA -[LHS]mulrA; transitivity ((prior (x i) * a) * e1 * e2 * p); [Rring|rewrite h; Rring].
Qed.

Lemma tS0 u x : 0 <= tS u x.
Proof.
apply: mulr_ge0.
  by apply: sumr_ge0 => y _; apply: mulr_ge0 => //; exact: (proj1 noiseP).
by apply: prodr_ge0 => j _; exact: (proj1 (postP u)).
Qed.

Lemma tp1_keeps key : good_mover mv -> keeps_target (fun x => prior x * exp (log_pdf x)) (tp1 key).
Proof. exact: (multi_keeps mv_rel (tp1_law key) tL1 tAL tA_rel tAW). Qed.

Lemma tp1_near key c eps :
  (forall key w (g : 'I_N.+1 -> R), prob_vec w -> (forall k, `|g k| <= c) ->
    `|\sum_k w k * E (mv key w k) (fun r => g r.1) - \sum_k w k * g k| <= eps) ->
  nearly_keeps_target (fun x => prior x * exp (log_pdf x)) (tp1 key) c eps.
Proof. by move=> H; apply: (multi_near mv_rel (tp1_law key) tL1 tAL tA_rel tAW tS0); auto. Qed.

Lemma tp1_rev key : reversible_mover mv -> reversible_kernel (fun x => prior x * exp (log_pdf x)) (tp1 key).
Proof.
move=> rv; apply: (multi_reversible mv_rel (tp1_law key) tAL tA_rel tAW) => u x k l.
by apply: rv; exact: normalize_prob.
Qed.
End Tp1.

End Kernels.

(** ** imh.py *)
Section Imh.
Variables (X : finType) (N : nat) (log_pdf : X -> R) (prior_sampling : key -> prog {ffun 'I_N -> X}).
Local Notation pop := {ffun 'I_N.+1 -> X}.
Variables (mv : mover N.+1) (prior : X -> R).
Hypothesis mv_rel : relabels mv.
Hypothesis priorP : prob_vec prior.
Hypothesis priorS : forall key, samples_indep (prior_sampling key) (fun _ => prior).
Local Notation imh := (fun key x => do r <- imh_kernel log_pdf prior_sampling mv key (imh_init log_pdf x); Ret r.1.1).

Definition iW (t : unit) (z : pop) : 'I_N.+1 -> R := fun i => log_pdf (z i).
Definition iL (x : X) (t : unit) (y : {ffun 'I_N -> X}) : R := \prod_j prior (y j).
Definition iA (t : unit) (z : pop) (i : 'I_N.+1) : R := prior (z i) * exp (log_pdf (z i)) * \prod_(j | j != i) prior (z j).
Definition iS (t : unit) (z : pop) : R := \prod_j prior (z j).

Lemma imh_joint key x (f : X -> bool -> R) :
  E (imh_kernel log_pdf prior_sampling mv key (imh_init log_pdf x)) (fun r => f r.1.1 r.2)
  = \sum_t \sum_y iL x t y * E (mv (split key 1) (normalize (iW t (front x y))) ord0) (fun r => f (front x y r.1) (r.1 != ord0)).
Proof.
rewrite sum_unit; have [_ _ ps] := priorS (split key 0).
rewrite /imh_kernel E_bind ps /imh_init; apply: eq_bigr => y _; congr (_ * _).
rewrite [LHS]E_select /=; congr (E (mv _ (normalize _) _) _).
by apply: functional_extensionality => i; rewrite (insert0_map log_pdf).
Qed.

Lemma imh_law key x f : E (imh key x) f
  = \sum_t \sum_y iL x t y * E (mv (split key 1) (normalize (iW t (front x y))) ord0) (fun r => f (front x y r.1)).
Proof. by rewrite E_bind -(imh_joint key x (fun y _ => f y)). Qed.

Lemma iL1 x : \sum_t \sum_y iL x t y = 1.
Proof.
rewrite sum_unit (sum_prod_ffun (fun _ z => prior z)) /= big1 // => j _; exact: (proj2 priorP).
Qed.

Lemma iAL x t y : iA t (front x y) ord0 = prior x * exp (log_pdf x) * iL x t y.
Proof. by rewrite /iA /iL front0 (prod_front prior). Qed.

Lemma iA_rel t s x i : bijective s -> iA t (relab s x) i = iA t x (s i).
Proof. by move=> bs; rewrite /iA (prod_relab prior) // ffunE. Qed.

Lemma iAW t x i : iA t x i = iS t x * exp (iW t x i).
Proof. by rewrite /iA /iS /iW [in RHS](bigD1 i) //= mulrAC. Qed.

Lemma iS0 t x : 0 <= iS t x.
Proof. by apply: prodr_ge0 => j _; exact: (proj1 priorP). Qed.

Lemma imh_keeps key : good_mover mv -> keeps_target (fun x => prior x * exp (log_pdf x)) (imh key).
Proof. exact: (multi_keeps mv_rel (imh_law key) iL1 iAL iA_rel iAW). Qed.

Lemma imh_near key c eps :
  (forall key w (g : 'I_N.+1 -> R), prob_vec w -> (forall k, `|g k| <= c) ->
    `|\sum_k w k * E (mv key w k) (fun r => g r.1) - \sum_k w k * g k| <= eps) ->
  nearly_keeps_target (fun x => prior x * exp (log_pdf x)) (imh key) c eps.
Proof. by move=> H; apply: (multi_near mv_rel (imh_law key) iL1 iAL iA_rel iAW iS0); auto. Qed.

Lemma imh_rev key : reversible_mover mv -> reversible_kernel (fun x => prior x * exp (log_pdf x)) (imh key).
Proof.
move=> rv; apply: (multi_reversible mv_rel (imh_law key) iAL iA_rel iAW) => u x k l.
by apply: rv; exact: normalize_prob.
Qed.
End Imh.
