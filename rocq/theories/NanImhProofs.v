(** * NanImhProofs: imh.py on targets with zeros (C89). *)
From Coq Require Import Reals Lra FunctionalExtensionality.
From mathcomp Require Import all_ssreflect all_algebra fingroup perm.
From Verif Require Import RInst Prog ProgTheory Resampling Spec ResamplingProofs MoveProofs KillingProofs.
From Verif Require Import CsmcInvariance ErgodicFinal Single SingleSpec SingleProofs.
From Verif Require Import NanCsmc NanSpec NanTheory NanNumbers NanProofs NanFinal NanExamples NanImh.

Set Implicit Arguments.
Unset Strict Implicit.
Unset Printing Implicit Defensive.
Import GRing.Theory Num.Theory Order.TTheory.
Local Open Scope ring_scope.

Lemma finite_self n' (l : 'I_n'.+1 -> xnum) : usable l -> finite_weights (xself_normalise l) = Some (wnorm l).
Proof.
move=> u; have s0 := wsum_gt0 u; move/andP: (u) => [/forallP lo /existsP ex].
have := amax_low lo ex; case e : (xamax l) => [m|||] // _.
have em : exp m != 0 by rewrite lt0r_neq0 //; exact: expR_gt0.
have wE i : xexp (xsub (l i) (Fin m)) = Fin (dens (l i) / exp m).
  by have := lo i; case: (l i) => [r|||] //= _; rewrite ?mul0r // expRB.
have sE : \big[xadd/Fin 0]_j xexp (xsub (l j) (Fin m)) = Fin (wsum l / exp m).
  rewrite sum_low; last by apply/allP => i _; have := lo i; case: (l i).
  rewrite /wsum mulr_suml; congr Fin; apply: eq_bigr => j _.
  by have := wE j; have := lo j; case: (l j) => [r|||] //= _ [].
have vE i : xself_normalise l i = Fin (wnorm l i).
  rewrite /xself_normalise e wE sE /= mulf_eq0 invr_eq0 (negbTE em) orbF gt_eqF //= /wnorm u.
  by rewrite invfM invrK mulrACA mulVf // mulr1.
rewrite /finite_weights; case: ifP => [_|/forallP []]; last by move=> i; rewrite vE.
by congr Some; apply: functional_extensionality => i; rewrite vE.
Qed.

Section Select.
Variables (Y : Type) (n' : nat) (mv : mover n'.+1) (key : key) (l : 'I_n'.+1 -> xnum) (pay : 'I_n'.+1 -> Y).

Lemma E_xselect f : usable l ->
  E (xselect mv key l pay) f = E (mv key (wnorm l) ord0) (fun r => f (Some (pay r.1, r.1 != ord0))).
Proof.
move=> u; rewrite /xselect E_obind /on_weights finite_self // E_bind.
by apply: eq_E => r.
Qed.

Lemma xselect_some : usable l -> always isSome (xselect mv key l pay).
Proof.
move=> u; rewrite /xselect /obind /on_weights finite_self //.
by apply/always_bind; apply/always_bind; apply: always_true => r.
Qed.
End Select.

Lemma E_abs A (p : prog A) f : proper p -> `|E p f| <= E p (fun a => `|f a|).
Proof.
move=> pp; rewrite ler_norml; apply/andP; split.
  rewrite -subr_ge0 opprK addrC -E_add; apply: E_ge0 => // a.
  by rewrite -ler_subl_addr sub0r -normrN ler_norm.
by rewrite -subr_ge0 -E_sub; apply: E_ge0 => // a; rewrite subr_ge0 ler_norm.
Qed.

Section Kernel.
Variables (X : finType) (N : nat) (log_pdf : X -> xnum) (L : X -> R).
Variable prior_sampling : key -> prog {ffun 'I_N -> X}.
Variable mv : mover N.+1.
Hypothesis logL : forall x, log_of (log_pdf x) (L x).
Local Notation K := (ximh_kernel log_pdf prior_sampling mv).
Local Notation pop := {ffun 'I_N.+1 -> X}.
Implicit Type z : pop.

Lemma L_ge0 x : 0 <= L x.
Proof. by have [<- _] := log_dens (logL x); exact: dens_ge0. Qed.

Definition lw (z : pop) (i : 'I_N.+1) : xnum := log_pdf (z i).
Definition W (z : pop) (i : 'I_N.+1) : R := L (z i) / \sum_j L (z j).

Lemma lw_usable z i : L (z i) != 0 -> usable (lw z).
Proof.
move=> p; apply/andP; split; first by apply/forallP => j; have [] := log_dens (logL (z j)).
by apply/existsP; exists i; rewrite dens_fin /lw; have [-> _] := log_dens (logL (z i)).
Qed.

Lemma lw_norm z i : L (z i) != 0 -> wnorm (lw z) = W z.
Proof.
move=> p; apply: functional_extensionality => j; rewrite /wnorm (lw_usable p) /W /wsum /lw.
have [-> _] := log_dens (logL (z j)).
by congr (_ / _); apply: eq_bigr => k _; have [] := log_dens (logL (z k)).
Qed.

Lemma W_prob z i : L (z i) != 0 -> prob_vec (W z).
Proof. by move=> p; rewrite -(lw_norm p); apply: wnorm_prob; exact: lw_usable p. Qed.

Lemma insert_lw x (y : {ffun 'I_N -> X}) :
  insert0 (log_pdf x) (fun j => log_pdf (y j)) = lw (front x y).
Proof. by apply: functional_extensionality => i; rewrite insert0_map. Qed.

Lemma E_ximh key x f : 0 < L x ->
  E (K key (ximh_init log_pdf x)) f
  = E (prior_sampling (split key 0)) (fun y => E (mv (split key 1) (W (front x y)) ord0)
      (fun r => f (Some ((front x y r.1, log_pdf (front x y r.1)), r.1 != ord0)))).
Proof.
move=> Lx; rewrite /ximh_kernel E_bind; apply: eq_E => y /=.
have p : L (front x y ord0) != 0 by rewrite front0 gt_eqF.
by rewrite insert_lw E_xselect ?(lw_usable p) // (lw_norm p).
Qed.

Lemma ximh_some key x : 0 < L x -> always isSome (K key (ximh_init log_pdf x)).
Proof.
move=> Lx; rewrite /ximh_kernel; apply/always_bind; apply: always_true => y /=.
have p : L (front x y ord0) != 0 by rewrite front0 gt_eqF.
by rewrite insert_lw; apply: xselect_some; exact: lw_usable p.
Qed.

Section Prior.
Variable prior : X -> R.
Hypothesis priorP : prob_vec prior.
Hypothesis priorS : forall key, samples_indep (prior_sampling key) (fun _ => prior).
Hypothesis mv_rel : relabels mv.

Definition PP (z : pop) : R := \prod_j prior (z j).
Lemma PP_relab s z : bijective s -> PP (relab s z) = PP z.
Proof. by move=> bs; rewrite /PP [RHS](reindex s); [apply: eq_bigr => i _; rewrite ffunE|exact: onW_bij]. Qed.
Lemma W_relab s z : bijective s -> W (relab s z) = fun i => W z (s i).
Proof.
move=> bs; apply: functional_extensionality => i; rewrite /W ffunE -(sum_relabel bs (fun j => L (z j))).
by congr (_ / _); apply: eq_bigr => j _; rewrite ffunE.
Qed.

Lemma PP_front x y : PP (front x y) = prior x * \prod_j prior (y j).
Proof. by rewrite /PP big_ord_recl front0; congr (_ * _); apply: eq_bigr => j _; rewrite frontS. Qed.

Definition pass key (g : X -> R) k : R :=
  \sum_z PP z * L (z k) * E (mv key (W z) k) (fun r => g (z r.1)).
Definition stay (g : X -> R) k : R := \sum_z PP z * L (z k) * g (z k).

Lemma pass_at key g k : pass key g ord0 = pass key g k.
Proof.
pose s := tperm ord0 k; have bs : bijective s by exists (s^-1)%g; [exact: permK|exact: permKV].
rewrite /pass [RHS](reindex (relab s)); last by apply: onW_bij; exists (relab s); exact: relab_invol.
apply: eq_bigr => z _; rewrite PP_relab // W_relab // ffunE tpermR; congr (_ * _).
have := mv_rel key (W z) k (fun i => g (z i)) bs; rewrite tpermR => <-.
by apply: eq_E => r; rewrite ffunE.
Qed.

Lemma stay_at g k : stay g ord0 = stay g k.
Proof.
pose s := tperm ord0 k; have bs : bijective s by exists (s^-1)%g; [exact: permK|exact: permKV].
rewrite /stay [RHS](reindex (relab s)); last by apply: onW_bij; exists (relab s); exact: relab_invol.
by apply: eq_bigr => z _; rewrite PP_relab // ffunE tpermR.
Qed.

Lemma sumL z k : L (z k) = (\sum_j L (z j)) * W z k.
Proof.
have [e|ne] := eqVneq (\sum_j L (z j)) 0; last by rewrite /W mulrCA divff // mulr1.
rewrite e mul0r; exact: (sum_pos_zero k (fun j => L_ge0 (z j)) e).
Qed.

Lemma some_L z : \sum_j L (z j) != 0 -> prob_vec (W z).
Proof.
move=> ne; have [i p|no] := pickP (fun i => L (z i) != 0); first exact: W_prob p.
by move: ne; rewrite big1 ?eqxx // => j _; apply/eqP; move/negbFE: (no j).
Qed.

Lemma pass_stay key g : good_mover mv -> pass key g ord0 = stay g ord0.
Proof.
move=> gm; apply: (@mulIf _ N.+1%:R); first by rewrite pnatr_eq0.
have avg (h : 'I_N.+1 -> R) : (forall k, h ord0 = h k) -> h ord0 * N.+1%:R = \sum_k h k.
  by move=> H; rewrite -(eq_bigr _ (fun k _ => H k)) sumr_const card_ord mulr_natr.
rewrite (avg (pass key g) (pass_at key g)) (avg (stay g) (stay_at g)) /pass /stay exchange_big [RHS]exchange_big /=.
apply: eq_bigr => z _; have [e|ne] := eqVneq (\sum_j L (z j)) 0.
  by rewrite !big1 // => k _; rewrite [L (z k)]sumL e !(mul0r, mulr0).
transitivity (PP z * (\sum_j L (z j)) * \sum_k W z k * E (mv key (W z) k) (fun r => g (z r.1))).
  by rewrite mulr_sumr; apply: eq_bigr => k _; rewrite [L (z k)]sumL !mulrA.
rewrite (gm _ _ (some_L ne) (fun k => g (z k))) mulr_sumr; apply: eq_bigr => k _.
by rewrite [in RHS](sumL z k) !mulrA.
Qed.

Lemma pass_near key g c eps :
  (forall w (h : 'I_N.+1 -> R), prob_vec w -> (forall k, `|h k| <= c) ->
    `|\sum_k w k * E (mv key w k) (fun r => h r.1) - \sum_k w k * h k| <= eps) ->
  (forall x, `|g x| <= c) ->
  `|pass key g ord0 - stay g ord0| <= stay (fun=> eps) ord0.
Proof.
move=> H gc; rewrite -(ler_pmul2r (ltr0Sn _ N)) -[X in X <= _](ger0_norm (x := `|_| * _)); last by rewrite mulr_ge0 ?ler0n.
rewrite normrM normr_id -normrM mulrBl.
have avg (h : 'I_N.+1 -> R) : (forall k, h ord0 = h k) -> h ord0 * N.+1%:R = \sum_k h k.
  by move=> E'; rewrite -(eq_bigr _ (fun k _ => E' k)) sumr_const card_ord mulr_natr.
rewrite (avg (pass key g) (pass_at key g)) (avg (stay g) (stay_at g)) (avg (stay (fun=> eps)) (stay_at (fun=> eps))).
rewrite /pass /stay exchange_big [X in `|_ - X|]exchange_big [X in _ <= X]exchange_big /= -sumrB.
apply: (le_trans (ler_norm_sum _ _ _)); apply: ler_sum => z _.
have [e|ne] := eqVneq (\sum_j L (z j)) 0.
  by rewrite !big1 ?subrr ?normr0 // => k _; rewrite [L (z k)]sumL e !(mul0r, mulr0).
have t0 : 0 <= PP z * \sum_j L (z j).
  apply: mulr_ge0; last by apply: sumr_ge0 => j _; exact: L_ge0.
  by apply: prodr_ge0 => j _; case: priorP.
have f1 (h : 'I_N.+1 -> R) : \sum_k PP z * L (z k) * h k = PP z * (\sum_j L (z j)) * \sum_k W z k * h k.
  by rewrite mulr_sumr; apply: eq_bigr => k _; rewrite [in LHS](sumL z k) !mulrA.
rewrite !f1 -mulrBr normrM (ger0_norm t0); apply: ler_wpmul2l => //.
rewrite -mulr_suml; have [_ ->] := some_L ne; rewrite mul1r.
by apply: (H _ (fun k => g (z k))) => //; exact: some_L.
Qed.

Definition after key x := do o <- K key (ximh_init log_pdf x); Ret (omap fst o).

Lemma after_pass key f : \sum_x prior x * L x * E (after key x) f = pass (split key 1) (fun x => f (Some (x, log_pdf x))) ord0.
Proof.
rewrite /pass -sum_front; apply: eq_bigr => x _; rewrite /after E_bind.
have := L_ge0 x; rewrite le_eqVlt => /orP [/eqP e|p].
  by rewrite -e mulr0 mul0r big1 // => y _; rewrite front0 -e mulr0 mul0r.
rewrite E_ximh //; have [_ _ ps] := priorS (split key 0); rewrite ps mulr_sumr; apply: eq_bigr => y _.
by rewrite PP_front front0 mulrA; congr (_ * _); rewrite mulrAC.
Qed.

Lemma stayE g : \sum_x prior x * L x * g x = stay g ord0.
Proof.
rewrite /stay -sum_front; apply: eq_bigr => x _.
transitivity (prior x * L x * g x * \sum_(y : {ffun 'I_N -> X}) \prod_j prior (y j)).
  by rewrite (sum_prod_ffun (fun _ a => prior a)) /= big1 ?mulr1 // => j _; exact: (proj2 priorP).
rewrite mulr_sumr; apply: eq_bigr => y _; rewrite PP_front front0.
by rewrite -!mulrA; congr (_ * _); rewrite [RHS]mulrC -mulrA.
Qed.

Theorem ximh_keeps key f : good_mover mv ->
  \sum_x prior x * L x * E (after key x) f = \sum_x prior x * L x * f (Some (x, log_pdf x)).
Proof. by move=> gm; rewrite after_pass pass_stay // -stayE. Qed.

Theorem ximh_near key f c eps :
  (forall key w (h : 'I_N.+1 -> R), prob_vec w -> (forall k, `|h k| <= c) ->
    `|\sum_k w k * E (mv key w k) (fun r => h r.1) - \sum_k w k * h k| <= eps) ->
  (forall o, `|f o| <= c) ->
  `|\sum_x prior x * L x * E (after key x) f - \sum_x prior x * L x * f (Some (x, log_pdf x))|
  <= \sum_x prior x * L x * eps.
Proof.
move=> H fc; rewrite after_pass !(stayE (fun x => f (Some (x, log_pdf x)))) stayE.
by apply: pass_near; [exact: H|move=> x].
Qed.
End Prior.

(** ** Runs *)

Lemma move_null key w k (h : 'I_N.+1 -> R) : good_mover mv -> proper_mover mv -> prob_vec w -> w k != 0 ->
  (forall j, 0 <= h j) -> (forall j, w j * h j = 0) -> E (mv key w k) (fun r => h r.1) = 0.
Proof.
move=> gm pm pw wk h0 z.
have := gm key w pw h; rewrite [RHS]big1 // => s.
have t0 j : 0 <= w j * E (mv key w j) (fun r => h r.1).
  by apply: mulr_ge0; [case: pw|apply: E_ge0 => [|r]; [exact: pm|exact: h0]].
by have /eqP := sum_pos_zero k t0 s; rewrite mulf_eq0 (negbTE wk) => /eqP.
Qed.

Theorem ximh_runs_some keys x : good_mover mv -> proper_mover mv -> 0 < L x ->
  Pr (ximh_runs log_pdf prior_sampling mv keys (ximh_init log_pdf x))
     (fun o => if o is Some st then L st.1 == 0 else true) = 0.
Proof.
move=> gm pm; rewrite /ximh_init; elim: keys x => [|k ks IH] x Lx.
  by rewrite /Pr /= gt_eqF.
rewrite /Pr [ximh_runs _ _ _ _ _]/= E_obind E_ximh //.
set bad := (fun o : option (X * xnum) => _).
have pr st : st.2 = log_pdf st.1 -> 0 < L st.1 -> E (ximh_runs log_pdf prior_sampling mv ks st) bad = 0.
  by case: st => a b /= -> p; have := IH a p; rewrite /Pr.
rewrite (eq_E _ (g := fun=> 0)) ?E0 // => y /=.
have p : L (front x y ord0) != 0 by rewrite front0 gt_eqF.
pose h j := `|E (ximh_runs log_pdf prior_sampling mv ks (front x y j, log_pdf (front x y j))) bad|.
have hz j : W (front x y) j * h j = 0.
  rewrite /h; have := L_ge0 (front x y j); rewrite le_eqVlt => /orP [/eqP e|q].
    by rewrite /W -e mul0r mul0r.
  by rewrite pr // normr0 mulr0.
have wk : W (front x y) ord0 != 0.
  rewrite /W mulf_neq0 // invr_neq0 //; apply/eqP => e.
  by have /eqP := sum_pos_zero ord0 (fun j => L_ge0 (front x y j)) e; rewrite (negbTE p).
have z := move_null (split k 1) gm pm (W_prob p) wk (fun j => normr_ge0 _) hz.
have pp := pm (split k 1) (W (front x y)) ord0 (W_prob p).
apply/eqP; rewrite -normr_eq0 eq_le normr_ge0 andbT.
apply: le_trans (E_abs _ pp) _; by rewrite -[X in _ <= X]z.
Qed.
End Kernel.

(** ** Finite numbers *)
Lemma ximh_agrees (X : Type) (N : nat) (log_pdf : X -> R) ps (mv : mover N.+1) key st f :
  E (ximh_kernel (fun x => Fin (log_pdf x)) ps mv key (st.1, Fin st.2)) f
  = E (imh_kernel log_pdf ps mv key st) (fun r => f (Some ((r.1.1, Fin r.1.2), r.2))).
Proof.
rewrite /ximh_kernel /imh_kernel !E_bind; apply: eq_E => y /=.
set l := insert0 st.2 _.
have -> : insert0 (Fin st.2) (fun j => Fin (log_pdf (y j))) = fun i => Fin (l i).
  by apply: functional_extensionality => i; rewrite /l /insert0; case: unlift.
have u : usable (fun i => Fin (l i)) by apply/andP; split; [apply/forallP|apply/existsP; exists ord0].
rewrite E_xselect // [RHS]E_bind.
have -> : wnorm (fun i => Fin (l i)) = self_normalise l.
  rewrite self_normaliseE; apply: functional_extensionality => i; rewrite /wnorm u normalizeE //=.
by apply: eq_E => r.
Qed.

(** ** The forced move *)
Local Notation t2 := (lift ord0 (lift ord0 ord0) : 'I_3).
Definition fw (i : 'I_3) : R := fG i / \sum_j fG j.

Lemma fG_ge0 x : 0 <= fG x.
Proof. by rewrite /fG; case: ifP => _; [exact: ler01|case: ifP => _; rewrite // ltW // dlt_gt0]. Qed.

Lemma fw_prob : prob_vec fw.
Proof.
have s0 : 0 < \sum_j fG j.
  rewrite (bigD1 ord0) //=; apply: ltr_paddr; first by apply: sumr_ge0 => i _; exact: fG_ge0.
  by rewrite /fG eqxx ltr01.
split=> [j|]; first by rewrite /fw divr_ge0 ?fG_ge0 // ltW.
by rewrite /fw -mulr_suml divff // gt_eqF.
Qed.

Lemma force_zero key : 0 < E (force_move key fw ord0) (fun r => (r.1 == t2)%:R).
Proof.
have d0 := dlt_gt0; have pz := fw_prob.
rewrite -(E_index_of _ _ _ _ (fun i => (i == t2)%:R)) (E_force pz) add0r.
rewrite (bigD1 t2) //= big1 ?addr0 => [|l /andP [_ /negbTE ->]]; last by rewrite subrr mulr0.
rewrite ?eqxx subr0 mulr1 /fm.
have ws : \sum_j fG j = 1 + dlt by rewrite !big_ord_recl big_ord0 /fG /= !addr0.
have w0 : fw ord0 = 1 / (1 + dlt) by rewrite /fw ws.
have w2 : fw t2 = 0 by rewrite /fw /fG /= mul0r.
have key1 (d : R) : 0 < d -> 1 - d <= 1 / (1 + d).
  move=> p; rewrite ler_pdivl_mulr; last by rewrite addr_gt0 ?ltr01.
  by rewrite mulrDr mulr1 mulrBl mul1r addrA subrK ler_subl_addr ler_addl mulr_ge0 // ltW.
have -> : force_rest fw ord0 t2 = 1 / 3%:R.
  rewrite /force_rest; case: ifP => // lt; exfalso; move: lt; apply/negP; rewrite -leNgt w0.
  by apply: le_trans (key1 _ d0); exact: dlt_le.
rewrite w2 subr0 w0; apply: mulr_gt0; first by rewrite divr_gt0 ?ltr01 ?ltr0Sn.
have key2 (d : R) : 0 < d -> 0 < 1 - 1 / (1 + d) <= 1.
  move=> p; have q : 0 < 1 + d by rewrite addr_gt0 ?ltr01.
  have r : 0 < 1 / (1 + d) by rewrite divr_gt0 ?ltr01.
  have s : 1 / (1 + d) < 1 by rewrite ltr_pdivr_mulr // mul1r ltr_addl.
  by rewrite subr_gt0 s ler_subl_addr ler_addl ltW.
have /andP [k1 k2] := key2 _ d0.
by rewrite /prob_lt ltr01 divr1 /clip lt_minr ltr01 andbT lt_maxr k1.
Qed.

Lemma self_ninf n' (l : 'I_n'.+1 -> xnum) : (forall i, l i = NInf) -> finite_weights (xself_normalise l) = None.
Proof.
move=> e; rewrite /finite_weights; case: ifP => // /forallP /(_ ord0).
by rewrite /xself_normalise (amax_ninf e) e.
Qed.

Local Notation flog := (fun x : 'I_3 => xlog (fG x)).
Local Notation fK := (ximh_kernel flog (unif_states 2 1) (@force_move 3)).

Lemma last_run key st : E (ximh_runs flog (unif_states 2 1) (@force_move 3) [:: key] st) (fun o => (~~ isSome o)%:R)
  = E (unif_states 2 1 (split key 0)) (fun y =>
      (~~ isSome (finite_weights (xself_normalise (insert0 st.2 (fun j => flog (y j))))))%:R).
Proof.
rewrite [ximh_runs _ _ _ _ _]/= E_obind /ximh_kernel E_bind; apply: eq_E => y /=.
rewrite /xselect E_obind /on_weights; case: (finite_weights _) => [w|] //.
by rewrite E_bind (eq_E _ (g := fun=> 0)) ?E0.
Qed.

Lemma ximh_force_fails : exists L : 'I_3 -> R,
  [/\ forall x, 0 <= L x, 0 < L ord0
    & forall k1 k2 : key, 0 < Pr (ximh_runs (fun x => xlog (L x)) (unif_states 2 1) (@force_move 3) [:: k1; k2]
        (ximh_init (fun x => xlog (L x)) ord0)) (fun o => ~~ isSome o)].
Proof.
exists fG; split=> [||k1 k2]; [exact: fG_ge0|by rewrite /fG eqxx ltr01|].
have lg x : log_of (xlog (fG x)) (fG x) by apply: xlog_of; exact: fG_ge0.
have L0 : 0 < fG ord0 by rewrite /fG eqxx ltr01.
pose H st := E (ximh_runs flog (unif_states 2 1) (@force_move 3) [:: k2] st) (fun o => (~~ isSome o)%:R).
have H0 st : 0 <= H st.
  rewrite /H last_run; apply: E_ge0 => [|y]; last exact: ler0n.
  by have [] := u_indep 2 1 (split k2 0).
have H2 : 0 < H (t2, NInf).
  rewrite /H last_run; apply: (@E_unif_ge 2 1 (split k2 0) [ffun=> t2]) => [y|]; first exact: ler0n.
  rewrite self_ninf ?ltr01 // => i; rewrite /insert0; case: unlift => [j|] //=.
  by rewrite ffunE /xlog /fG /= ltxx.
rewrite /Pr.
change (0 < E (obind (fK k1 (ximh_init flog ord0)) (fun r => ximh_runs flog (unif_states 2 1) (@force_move 3) [:: k2] r.1)) (fun o => (~~ isSome o)%:R)).
rewrite E_obind (E_ximh (unif_states 2 1) (@force_move 3) lg k1 _ L0).
have pw (y : {ffun 'I_2 -> 'I_3}) : prob_vec (W fG (front ord0 y)).
  by apply: (W_prob lg (i := ord0)); rewrite front0 gt_eqF.
apply: (@E_unif_ge 2 1 (split k1 0) [ffun i => lift ord0 i]) => [y|].
  by apply: E_ge0 => [|r]; [exact: force_proper|exact: H0].
set z := front _ _; have zE i : z i = i.
  by rewrite /z ffunE /insert0; case: unliftP => [j ->|->] //; rewrite ffunE.
have wE : W fG z = fw.
  apply: functional_extensionality => i; rewrite /W /fw zE; congr (_ / _).
  by apply: eq_bigr => j _; rewrite zE.
have e2 : xlog (fG t2) = NInf by rewrite /xlog /fG /= ltxx.
apply: lt_le_trans (_ : _ <= _); first exact: mulr_gt0 (force_zero (split k1 1)) H2.
rewrite wE mulrC -E_scale -subr_ge0 -E_sub; apply: E_ge0 => [|r]; first exact: force_proper fw_prob.
rewrite subr_ge0 zE; case: eqP => [->|_]; last by rewrite mulr0; exact: H0.
by rewrite mulr1 e2.
Qed.
