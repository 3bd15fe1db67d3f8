(** * NanSingleProofs: mala.py and tp.py on targets with zeros (C90). *)
From Coq Require Import Reals Lra FunctionalExtensionality.
From mathcomp Require Import all_ssreflect all_algebra fingroup perm.
From Verif Require Import RInst Prog ProgTheory Resampling Spec ResamplingProofs MoveProofs KillingProofs.
From Verif Require Import CsmcInvariance AuxProofs TpProofs Single SingleSpec SingleProofs.
From Verif Require Import NanCsmc NanSpec NanTheory NanNumbers NanProofs NanFinal NanImh NanImhProofs NanSingle.

Set Implicit Arguments.
Unset Strict Implicit.
Unset Printing Implicit Defensive.
Import GRing.Theory Num.Theory Order.TTheory.
Local Open Scope ring_scope.

Definition nrm n (v : 'I_n -> R) (i : 'I_n) : R := v i / \sum_j v j.

Lemma nrm_prob n (v : 'I_n -> R) i : (forall j, 0 <= v j) -> v i != 0 -> prob_vec (nrm v).
Proof.
move=> v0 vi; have s0 : \sum_j v j != 0 by apply: contraNneq vi => e; rewrite (sum_pos_zero i v0 e).
split=> [j|]; first by apply: divr_ge0 => //; apply: sumr_ge0.
by rewrite /nrm -mulr_suml divff.
Qed.

Lemma nrm_scale n (v : 'I_n -> R) c : c != 0 -> nrm (fun i => c * v i) = nrm v.
Proof.
move=> c0; apply: functional_extensionality => i; rewrite /nrm -mulr_sumr invfM mulrACA divff ?mul1r //.
Qed.

Lemma nrmE n (v : 'I_n -> R) i : (forall j, 0 <= v j) -> v i = (\sum_j v j) * nrm v i.
Proof.
move=> v0; have [e|ne] := eqVneq (\sum_j v j) 0; last by rewrite /nrm mulrCA divff // mulr1.
by rewrite e mul0r; exact: (sum_pos_zero i v0 e).
Qed.

(** ** Selection with weights that may vanish *)
Section Multi.
Variables (X U : finType) (B : Type) (N : nat).
Local Notation n := N.+1.
Local Notation pop := {ffun 'I_n -> X}.
Variables (mv : mover n) (kc : key) (K : X -> prog B) (out : X -> B) (target : X -> R).
Variable L : X -> U -> {ffun 'I_N -> X} -> R.
Variable A : U -> pop -> 'I_n -> R.
Implicit Type z : pop.
Hypothesis mv_rel : relabels mv.
Hypothesis t0 : forall x, 0 <= target x.
Hypothesis KE : forall x f, 0 < target x -> E (K x) f
  = \sum_u \sum_y L x u y * E (mv kc (nrm (A u (front x y))) ord0) (fun r => f (out (front x y r.1))).
Hypothesis L1 : forall x, \sum_u \sum_y L x u y = 1.
Hypothesis AL : forall x u y, A u (front x y) ord0 = target x * L x u y.
Hypothesis A_rel : forall u s z i, bijective s -> A u (relab s z) i = A u z (s i).
Hypothesis A0 : forall u z i, 0 <= A u z i.

Definition pas (g : X -> R) k : R := \sum_u \sum_z A u z k * E (mv kc (nrm (A u z)) k) (fun r => g (z r.1)).
Definition sta (g : X -> R) k : R := \sum_u \sum_z A u z k * g (z k).

Lemma nrm_relab u s z : bijective s -> nrm (A u (relab s z)) = fun i => nrm (A u z) (s i).
Proof.
move=> bs; apply: functional_extensionality => i; rewrite /nrm A_rel // -(sum_relabel bs (A u z)).
by congr (_ / _); apply: eq_bigr => j _; rewrite A_rel.
Qed.

Lemma pas_at g k : pas g ord0 = pas g k.
Proof.
pose s := tperm ord0 k; have bs : bijective s by exists (s^-1)%g; [exact: permK|exact: permKV].
apply: eq_bigr => u _; rewrite [RHS](reindex (relab s)); last by apply: onW_bij; exists (relab s); exact: relab_invol.
apply: eq_bigr => z _; rewrite A_rel // nrm_relab // tpermR; congr (_ * _).
have := mv_rel kc (nrm (A u z)) k (fun i => g (z i)) bs; rewrite tpermR => <-.
by apply: eq_E => r; rewrite ffunE.
Qed.

Lemma sta_at g k : sta g ord0 = sta g k.
Proof.
pose s := tperm ord0 k; have bs : bijective s by exists (s^-1)%g; [exact: permK|exact: permKV].
apply: eq_bigr => u _; rewrite [RHS](reindex (relab s)); last by apply: onW_bij; exists (relab s); exact: relab_invol.
by apply: eq_bigr => z _; rewrite A_rel // ffunE tpermR.
Qed.

Lemma avg (h : 'I_n -> R) : (forall k, h ord0 = h k) -> h ord0 * n%:R = \sum_k h k.
Proof. by move=> H; rewrite -(eq_bigr _ (fun k _ => H k)) sumr_const card_ord mulr_natr. Qed.

Lemma wsumE u z (h : 'I_n -> R) : \sum_k A u z k * h k = (\sum_j A u z j) * \sum_k nrm (A u z) k * h k.
Proof. by rewrite mulr_sumr; apply: eq_bigr => k _; rewrite {1}(nrmE k (A0 u z)) mulrA. Qed.

Lemma pas_avg g : pas g ord0 * n%:R
  = \sum_u \sum_z (\sum_j A u z j) * \sum_k nrm (A u z) k * E (mv kc (nrm (A u z)) k) (fun r => g (z r.1)).
Proof.
rewrite (avg (pas_at g)) exchange_big; apply: eq_bigr => u _ /=; rewrite exchange_big; apply: eq_bigr => z _ /=.
exact: wsumE.
Qed.

Lemma sta_avg g : sta g ord0 * n%:R = \sum_u \sum_z (\sum_j A u z j) * \sum_k nrm (A u z) k * g (z k).
Proof.
rewrite (avg (sta_at g)) exchange_big; apply: eq_bigr => u _ /=; rewrite exchange_big; apply: eq_bigr => z _ /=.
exact: wsumE.
Qed.

Lemma tot0 u z : 0 <= \sum_j A u z j. Proof. by apply: sumr_ge0. Qed.

Lemma tot_prob u z : \sum_j A u z j != 0 -> prob_vec (nrm (A u z)).
Proof.
move=> ne; have [i p|no] := pickP (fun i => A u z i != 0); first exact: nrm_prob p.
by move: ne; rewrite big1 ?eqxx // => j _; apply/eqP; move/negbFE: (no j).
Qed.

Lemma pas_sta g : good_mover mv -> pas g ord0 = sta g ord0.
Proof.
move=> gm; apply: (@mulIf _ n%:R); first by rewrite pnatr_eq0.
rewrite pas_avg sta_avg; apply: eq_bigr => u _; apply: eq_bigr => z _.
have [->|ne] := eqVneq (\sum_j A u z j) 0; first by rewrite !mul0r.
by rewrite (gm _ _ (tot_prob ne) (fun k => g (z k))).
Qed.

Lemma pas_near g c eps :
  (forall w (h : 'I_n -> R), prob_vec w -> (forall k, `|h k| <= c) ->
    `|\sum_k w k * E (mv kc w k) (fun r => h r.1) - \sum_k w k * h k| <= eps) ->
  (forall x, `|g x| <= c) -> `|pas g ord0 - sta g ord0| <= sta (fun=> eps) ord0.
Proof.
move=> H gc; have n0 : 0 < n%:R :> R by rewrite ltr0n.
rewrite -(ler_pmul2r n0) -[X in _ * X <= _](gtr0_norm n0) -normrM mulrBl pas_avg !sta_avg -sumrB.
apply: (le_trans (ler_norm_sum _ _ _)); apply: ler_sum => u _; rewrite -sumrB.
apply: (le_trans (ler_norm_sum _ _ _)); apply: ler_sum => z _.
have [->|ne] := eqVneq (\sum_j A u z j) 0; first by rewrite !mul0r subrr normr0.
rewrite -mulrBr normrM (ger0_norm (tot0 u z)); apply: ler_wpmul2l; first exact: tot0.
rewrite -mulr_suml; have [_ ->] := tot_prob ne; rewrite mul1r.
by apply: (H _ (fun k => g (z k))) => //; exact: tot_prob.
Qed.

Lemma sum_pas f : \sum_x target x * E (K x) f = pas (fun x => f (out x)) ord0.
Proof.
transitivity (\sum_x \sum_u \sum_y A u (front x y) ord0
    * E (mv kc (nrm (A u (front x y))) ord0) (fun r => f (out (front x y r.1)))).
  apply: eq_bigr => x _; have := t0 x; rewrite le_eqVlt => /orP [/eqP e|p].
    by rewrite -e mul0r big1 // => u _; rewrite big1 // => y _; rewrite AL -e !mul0r.
  by rewrite KE // mulr_sumr; apply: eq_bigr => u _; rewrite mulr_sumr; apply: eq_bigr => y _; rewrite AL mulrA.
rewrite exchange_big; apply: eq_bigr => u _ /=; exact: (sum_front (fun z => A u z ord0
    * E (mv kc (nrm (A u z)) ord0) (fun r => f (out (z r.1))))).
Qed.

Lemma sum_sta g : \sum_x target x * g x = sta g ord0.
Proof.
transitivity (\sum_x \sum_u \sum_y A u (front x y) ord0 * g (front x y ord0)).
  apply: eq_bigr => x _; rewrite -[in LHS](mulr1 (target x)) -(L1 x) mulr_sumr mulr_suml; apply: eq_bigr => u _.
  by rewrite mulr_sumr mulr_suml; apply: eq_bigr => y _; rewrite AL front0.
rewrite exchange_big; apply: eq_bigr => u _ /=; exact: (sum_front (fun z => A u z ord0 * g (z ord0))).
Qed.

Lemma multi0_keeps f : good_mover mv -> \sum_x target x * E (K x) f = \sum_x target x * f (out x).
Proof. by move=> gm; rewrite sum_pas pas_sta // (sum_sta (fun x => f (out x))). Qed.

Lemma multi0_near f c eps :
  (forall w (h : 'I_n -> R), prob_vec w -> (forall k, `|h k| <= c) ->
    `|\sum_k w k * E (mv kc w k) (fun r => h r.1) - \sum_k w k * h k| <= eps) ->
  (forall b, `|f b| <= c) ->
  `|\sum_x target x * E (K x) f - \sum_x target x * f (out x)| <= \sum_x target x * eps.
Proof.
move=> H fc; rewrite sum_pas (sum_sta (fun x => f (out x))) (sum_sta (fun=> eps)).
by apply: pas_near => [|x]; [exact: H|exact: fc].
Qed.
End Multi.

(** ** Log-weights and their exponentials *)
Definition logs n' (l : 'I_n'.+1 -> xnum) (V : 'I_n'.+1 -> R) : Prop := forall i, low (l i) /\ dens (l i) = V i.

Lemma logs_usable n' (l : 'I_n'.+1 -> xnum) V : logs l V -> V ord0 != 0 -> usable l /\ wnorm l = nrm V.
Proof.
move=> lV v0; have u : usable l.
  apply/andP; split; first by apply/forallP => i; case: (lV i).
  by apply/existsP; exists ord0; rewrite dens_fin; case: (lV ord0) => _ ->.
split=> //; apply: functional_extensionality => i; rewrite /wnorm u /nrm /wsum.
by case: (lV i) => _ ->; congr (_ / _); apply: eq_bigr => j _; case: (lV j).
Qed.

Lemma low_add a r : low a -> low (xadd a (Fin r)) /\ dens (xadd a (Fin r)) = dens a * exp r.
Proof. by case: a => //= [x|]; rewrite ?mul0r // expRD. Qed.
Lemma low_sub a r : low a -> low (xsub a (Fin r)) /\ dens (xsub a (Fin r)) = dens a / exp r.
Proof. by case: a => //= [x|]; rewrite ?mul0r // expRB. Qed.

Section Kernels.
Variables (X : finZmodType) (N : nat).
Local Notation pop := {ffun 'I_N.+1 -> X}.
Variables (log_pdf : X -> xnum) (tgt : X -> R) (g : X -> X) (noise ld : X -> R) (scale : X -> X).
Variable log_H : pop -> X -> X -> R.
Variable mv : mover N.+1.
Hypothesis logL : forall x, log_of (log_pdf x) (tgt x).
Hypothesis noiseP : prob_vec noise.
Local Notation grad := (fun x => Some (g x)).
Local Notation mala := (xmala_kernel log_pdf grad noise ld scale log_H mv).
Local Notation init := (xtp1_init log_pdf grad).
Implicit Type z : pop.

Lemma tgt_ge0 x : 0 <= tgt x.
Proof. by have [<- _] := log_dens (logL x); exact: dens_ge0. Qed.

Definition cor (aux : bool) (u : X) z (i : 'I_N.+1) : R :=
  if aux then exp (ld (u - z i - scale (g (z i)))) / exp (ld (u - z i))
  else exp (log_H z (z i) (scale (g (z i)))).
Definition mV aux u z i : R := tgt (z i) * cor aux u z i.

Lemma cor_gt0 aux u z i : 0 < cor aux u z i.
Proof. by rewrite /cor; case: aux; rewrite ?divr_gt0 // ?expR_gt0. Qed.

Lemma samples_front x u (e : {ffun 'I_N -> X}) :
  [ffun i => insert0 x (fun j => u + e j) i] = front x [ffun j => u + e j].
Proof. by apply/ffunP => i; rewrite !ffunE /insert0; case: unlift => [j|] //; rewrite ffunE. Qed.

Lemma insert_front (Y : Type) (h : X -> Y) x u (e : {ffun 'I_N -> X}) :
  insert0 (h x) (fun j => h (u + e j)) = fun i => h (front x [ffun j => u + e j] i).
Proof.
apply: functional_extensionality => i; rewrite -(insert0_map h) /insert0.
by case: unlift => [j|] //; rewrite ffunE.
Qed.

Lemma mala_logs aux u z : logs (xmala_log_weights ld scale log_H aux u z (fun i => grad (z i)) (fun i => log_pdf (z i))) (mV aux u z).
Proof.
move=> i; rewrite /xmala_log_weights /mV /cor; have [<- lo] := log_dens (logL (z i)).
case: aux => /=; last by have [] := low_add (log_H z (z i) (scale (g (z i)))) lo.
have [l1 e1] := low_add (ld (u - z i - scale (g (z i)))) lo.
by have [l2 ->] := low_sub (ld (u - z i)) l1; split=> //; rewrite e1 mulrA.
Qed.

Lemma mV0 aux x u y : 0 < tgt x -> mV aux u (front x y) ord0 != 0.
Proof. by move=> p; rewrite /mV front0 mulf_neq0 ?gt_eqF // cor_gt0. Qed.

Lemma xmala_law key aux x f : 0 < tgt x ->
  E (do o <- mala key aux (init x); Ret (omap fst o)) f
  = \sum_u \sum_y mL g noise scale x u y * E (mv (split key 1) (nrm (mV aux u (front x y))) ord0)
      (fun r => f (Some (init (front x y r.1)))).
Proof.
move=> p; rewrite E_bind /xmala_kernel /xmala_run /xtp1_init; cbn [fst snd]; rewrite E_bind E_draw /=.
pose G u := \sum_(y : {ffun 'I_N -> X}) (\prod_j noise (y j - u)) * E (mv (split key 1) (nrm (mV aux u (front x y))) ord0) (fun r => f (Some (init (front x y r.1)))).
transitivity (\sum_e noise e * G (x + scale (g x) + e)).
  apply: eq_bigr => e _; congr (_ * _); move: (x + _ + e) => u.
  rewrite /G -(sum_eps noise u (fun y => E (mv (split key 1) (nrm (mV aux u (front x y))) ord0) (fun r => f (Some (init (front x y r.1)))))).
  apply: eq_bigr => eps _; congr (_ * _).
  rewrite -/(E _ _) samples_front (insert_front log_pdf) (insert_front grad).
  have [us e1] := logs_usable (mala_logs aux u (front x [ffun j => u + eps j])) (mV0 aux u _ p).
  by rewrite E_xselect // e1.
rewrite (sum_shift noise (x + scale (g x)) G); apply: eq_bigr => u _.
by rewrite mulr_sumr; apply: eq_bigr => y _; rewrite mulrA.
Qed.

Lemma xmala_some key aux x : 0 < tgt x -> always isSome (mala key aux (init x)).
Proof.
move=> p; rewrite /xmala_kernel /xmala_run /xtp1_init; cbn [fst snd].
apply/always_bind; apply: always_true => e; apply/always_bind; apply: always_true => eps /=.
move: (x + _ + e) => u; rewrite samples_front (insert_front log_pdf) (insert_front grad).
have [us _] := logs_usable (mala_logs aux u (front x [ffun j => u + eps j])) (mV0 aux u _ p).
exact: xselect_some.
Qed.

Local Notation near_mover c eps := (forall key w (h : 'I_N.+1 -> R), prob_vec w -> (forall k, `|h k| <= c) ->
    `|\sum_k w k * E (mv key w k) (fun r => h r.1) - \sum_k w k * h k| <= eps).
Hypothesis mv_rel : relabels mv.
Definition zA (u : X) z (i : 'I_N.+1) : R :=
  tgt (z i) * noise (u - (z i + scale (g (z i)))) * \prod_(j | j != i) noise (z j - u).

Lemma zAL x u y : zA u (front x y) ord0 = tgt x * mL g noise scale x u y.
Proof. by rewrite /zA /mL front0 (prod_front (fun a => noise (a - u))) mulrA. Qed.
Lemma zA_rel u s z i : bijective s -> zA u (relab s z) i = zA u z (s i).
Proof. by move=> bs; rewrite /zA (prod_relab (fun a => noise (a - u))) // ffunE. Qed.
Lemma zA0 u z i : 0 <= zA u z i.
Proof.
have n0 := proj1 noiseP; rewrite /zA; apply: mulr_ge0; first by apply: mulr_ge0 => //; exact: tgt_ge0.
by apply: prodr_ge0.
Qed.

(** *** Auxiliary style *)
Section Aux.
Hypothesis even : forall a, noise (- a) = noise a.
Hypothesis ldE : exists c, c != 0 /\ forall a, exp (ld a) = c * noise a.

Lemma zAV u z i : zA u z i = (\prod_j noise (z j - u)) * mV true u z i.
Proof.
have [c [c0 H]] := ldE.
have nz a : noise a != 0.
  by apply/eqP => e; have := H a; rewrite e mulr0 => /eqP; rewrite (negbTE (expR_neq0 _)).
rewrite /zA /mV /cor [in RHS](bigD1 i) //= !H -[z i - u]opprB even.
have -> : u - z i - scale (g (z i)) = u - (z i + scale (g (z i))) by rewrite opprD addrA.
rewrite invfM; have := nz (u - z i); move: (noise _) (noise _) (tgt _) (\prod_(_ | _) _) => a b e p a0.
have := mulfV a0; have := mulfV c0; move: a^-1 c^-1 => a' c' hc ha.
by rewrite -[LHS]mulr1 -hc -[LHS]mulr1 -ha; Rring.
Qed.

Lemma aux_nrm u z : \prod_j noise (z j - u) != 0 -> nrm (mV true u z) = nrm (zA u z).
Proof.
move=> s0; rewrite -(nrm_scale (mV true u z) s0); congr nrm.
by apply: functional_extensionality => i; rewrite zAV.
Qed.

Lemma aux_nz u z : \prod_j noise (z j - u) != 0.
Proof.
have [c [c0 H]] := ldE; apply/prodf_neq0 => j _.
by apply/eqP => e; have := H (z j - u); rewrite e mulr0 => /eqP; rewrite (negbTE (expR_neq0 _)).
Qed.

Definition mafter key aux x := do o <- mala key aux (init x); Ret (omap fst o).

Lemma aux_law key x f : 0 < tgt x -> E (mafter key true x) f
  = \sum_u \sum_y mL g noise scale x u y * E (mv (split key 1) (nrm (zA u (front x y))) ord0)
      (fun r => f (Some (init (front x y r.1)))).
Proof.
move=> p; rewrite xmala_law //; apply: eq_bigr => u _; apply: eq_bigr => y _.
by rewrite (aux_nrm (aux_nz _ _)).
Qed.

Theorem xmala_aux_keeps key f : good_mover mv ->
  \sum_x tgt x * E (mafter key true x) f = \sum_x tgt x * f (Some (init x)).
Proof.
exact: (multi0_keeps (K := mafter key true) (out := fun x => Some (init x)) mv_rel tgt_ge0 (fun x f => @aux_law key x f) (mL1 N g scale noiseP) zAL zA_rel zA0).
Qed.

Theorem xmala_aux_near key f c eps : near_mover c eps -> (forall o, `|f o| <= c) ->
  `|\sum_x tgt x * E (mafter key true x) f - \sum_x tgt x * f (Some (init x))| <= \sum_x tgt x * eps.
Proof.
move=> H; apply: (multi0_near (K := mafter key true) (out := fun x => Some (init x)) mv_rel tgt_ge0 (fun x f => @aux_law key x f) (mL1 N g scale noiseP) zAL zA_rel zA0).
exact: H.
Qed.
End Aux.

(** *** Marginal style *)
Section Marg.
Hypothesis logHE : exists S : pop -> R, forall (x : pop) b phi,
  \sum_u noise (u - (x b + phi)) * \prod_(i | i != b) noise (x i - u) = S x * exp (log_H x (x b) phi).

Definition wA (u : unit) z (i : 'I_N.+1) : R := \sum_v zA v z i.
Definition wL (x : X) (t : unit) (y : {ffun 'I_N -> X}) : R := \sum_u mL g noise scale x u y.

Lemma wL1 x : \sum_t \sum_y wL x t y = 1.
Proof. by rewrite sum_unit -(mL1 N g scale noiseP x) [RHS]exchange_big. Qed.
Lemma wAL x t y : wA t (front x y) ord0 = tgt x * wL x t y.
Proof. by rewrite /wA /wL mulr_sumr; apply: eq_bigr => u _; exact: zAL. Qed.
Lemma wA_rel t s z i : bijective s -> wA t (relab s z) i = wA t z (s i).
Proof. by move=> bs; apply: eq_bigr => u _; exact: zA_rel. Qed.
Lemma wA0 t z i : 0 <= wA t z i.
Proof. by apply: sumr_ge0 => u _; exact: zA0. Qed.

Lemma marg_law key x f : 0 < tgt x -> E (mafter key false x) f
  = \sum_t \sum_y wL x t y * E (mv (split key 1) (nrm (wA t (front x y))) ord0)
      (fun r => f (Some (init (front x y r.1)))).
Proof.
move=> p; have [S H] := logHE.
have wAV t z i : wA t z i = S z * mV false 0 z i.
  rewrite /mV /cor mulrCA -H mulr_sumr; apply: eq_bigr => u _.
  by rewrite /zA mulrA.
rewrite xmala_law // sum_unit exchange_big; apply: eq_bigr => y _ /=; rewrite /wL mulr_suml.
apply: eq_bigr => u _; have [e|ne] := eqVneq (S (front x y)) 0.
  have : wL x tt y = 0.
    have := wAL x tt y; rewrite wAV e mul0r => /esym /eqP; rewrite mulf_eq0 gt_eqF //= => /eqP.
    by [].
  move=> /(sum_pos_zero u) ->; first by rewrite !mul0r.
  move=> v; rewrite /mL; have n0 := proj1 noiseP; apply: mulr_ge0 => //; by apply: prodr_ge0.
congr (_ * E (mv _ _ _) _); rewrite -(nrm_scale (mV false u (front x y)) ne); congr nrm.
by apply: functional_extensionality => i; rewrite wAV.
Qed.

Theorem xmala_marg_keeps key f : good_mover mv ->
  \sum_x tgt x * E (mafter key false x) f = \sum_x tgt x * f (Some (init x)).
Proof. exact: (multi0_keeps (K := mafter key false) (out := fun x => Some (init x)) mv_rel tgt_ge0 (fun x f => @marg_law key x f) wL1 wAL wA_rel wA0). Qed.

Theorem xmala_marg_near key f c eps : near_mover c eps -> (forall o, `|f o| <= c) ->
  `|\sum_x tgt x * E (mafter key false x) f - \sum_x tgt x * f (Some (init x))| <= \sum_x tgt x * eps.
Proof.
move=> H; apply: (multi0_near (K := mafter key false) (out := fun x => Some (init x)) mv_rel tgt_ge0 (fun x f => @marg_law key x f) wL1 wAL wA_rel wA0).
exact: H.
Qed.
End Marg.

(** ** tp.py; here [tgt] is the likelihood *)
Section Tp.
Variables (corr : X -> X -> X -> R) (post_sampling : key -> X -> prog {ffun 'I_N -> X}).
Variables (prior : X -> R) (post : X -> X -> R).
Local Notation tp := (xtp1_kernel log_pdf grad noise scale mv corr post_sampling).

Definition pV u z i : R := tgt (z i) * exp (corr u (z i) (g (z i))).
Lemma tp_logs u z : logs (fun i => xadd (log_pdf (z i)) (Fin (corr u (z i) (g (z i))))) (pV u z).
Proof. by move=> i; rewrite /pV; have [<- lo] := log_dens (logL (z i)); exact: low_add. Qed.
Lemma pV0 x u y : 0 < tgt x -> pV u (front x y) ord0 != 0.
Proof. by move=> p; rewrite /pV front0 mulf_neq0 ?gt_eqF ?expR_neq0 // expR_gt0. Qed.

Lemma insert_frontE (Y : Type) (h : X -> Y) x (y : {ffun 'I_N -> X}) :
  insert0 (h x) (fun j => h (y j)) = fun i => h (front x y i).
Proof. by apply: functional_extensionality => i; rewrite insert0_map. Qed.

Lemma xtp_some key x : 0 < tgt x -> always isSome (tp key (init x)).
Proof.
move=> p; rewrite /xtp1_kernel /xtp1_run /xtp1_init; cbn [fst snd].
apply/always_bind; apply: always_true => e; apply/always_bind; apply: always_true => y /=.
move: (x + _ + e) => u; rewrite (insert_frontE log_pdf) (insert_frontE grad) -/(front x y).
have [us _] := logs_usable (tp_logs u (front x y)) (pV0 u y p).
exact: xselect_some.
Qed.

Hypothesis prior0 : forall x, 0 <= prior x.
Hypothesis postP : forall u, prob_vec (post u).
Hypothesis postS : forall key u, samples_indep (post_sampling key u) (fun _ => post u).
Hypothesis postE : forall u, exists Z, forall x, prior x * noise (u - x) = Z * post u x.
Hypothesis corrE : forall u x g, noise (u - x) * exp (corr u x g) = noise (u - (x + scale g)).

Definition pafter key x := do o <- tp key (init x); Ret (omap fst o).
Local Notation pL := (tL g noise scale post).

Lemma xtp_law key x f : 0 < tgt x -> E (pafter key x) f
  = \sum_u \sum_y pL x u y * E (mv (split key 1) (nrm (pV u (front x y))) ord0)
      (fun r => f (Some (init (front x y r.1)))).
Proof.
move=> p; rewrite /pafter E_bind /xtp1_kernel /xtp1_run /xtp1_init; cbn [fst snd]; rewrite E_bind E_draw.
pose G u := \sum_(y : {ffun 'I_N -> X}) (\prod_j post u (y j)) * E (mv (split key 1) (nrm (pV u (front x y))) ord0) (fun r => f (Some (init (front x y r.1)))).
transitivity (\sum_e noise e * G (x + scale (g x) + e)).
  apply: eq_bigr => e _; congr (_ * _); cbv zeta; move: (x + _ + e) => u.
  have [_ _ ps] := postS (split key 0) u.
  rewrite [LHS]E_bind ps /G; apply: eq_bigr => y _; congr (_ * _).
  rewrite (insert_frontE log_pdf) (insert_frontE grad) -/(front x y).
  have [us e1] := logs_usable (tp_logs u (front x y)) (pV0 u y p).
  by rewrite E_xselect // e1.
rewrite (sum_shift noise (x + scale (g x)) G); apply: eq_bigr => u _.
by rewrite mulr_sumr; apply: eq_bigr => y _; rewrite mulrA.
Qed.

Definition pA (u : X) z (i : 'I_N.+1) : R :=
  prior (z i) * tgt (z i) * noise (u - (z i + scale (g (z i)))) * \prod_(j | j != i) post u (z j).
Lemma pAL x u y : pA u (front x y) ord0 = prior x * tgt x * pL x u y.
Proof. by rewrite /pA /tL front0 (prod_front (post u)) mulrA. Qed.
Lemma pA_rel u s z i : bijective s -> pA u (relab s z) i = pA u z (s i).
Proof. by move=> bs; rewrite /pA (prod_relab (post u)) // ffunE. Qed.
Lemma pA0 u z i : 0 <= pA u z i.
Proof.
have n0 := proj1 noiseP; have q0 := proj1 (postP u).
by rewrite /pA; apply: mulr_ge0; [apply: mulr_ge0 => //; apply: mulr_ge0 => //; exact: tgt_ge0|apply: prodr_ge0].
Qed.

Lemma pAV u z i : pA u z i = (tZ noise prior u * \prod_j post u (z j)) * pV u z i.
Proof.
rewrite /pA /pV [in RHS](bigD1 i) //= -corrE.
have := tZE postP postE u (z i); move: (noise _) (post u (z i)) (exp _) (tgt _) (\prod_(_ | _) _) => a q e1 e2 p h.
by transitivity ((prior (z i) * a) * e1 * e2 * p); [Rring|rewrite h; Rring].
Qed.

Lemma tp_law key x f : 0 < prior x * tgt x -> E (pafter key x) f
  = \sum_u \sum_y pL x u y * E (mv (split key 1) (nrm (pA u (front x y))) ord0)
      (fun r => f (Some (init (front x y r.1)))).
Proof.
move=> p; have tx : 0 < tgt x.
  by have := tgt_ge0 x; rewrite le_eqVlt => /orP [/eqP e|//]; move: p; rewrite -e mulr0 ltxx.
rewrite xtp_law //; apply: eq_bigr => u _; apply: eq_bigr => y _.
have [e|ne] := eqVneq (tZ noise prior u * \prod_j post u (front x y j)) 0.
  have /eqP := pAL x u y; rewrite pAV e mul0r eq_sym mulf_eq0 gt_eqF //= => /eqP ->.
  by rewrite !mul0r.
congr (_ * E (mv _ _ _) _); rewrite -(nrm_scale (pV u (front x y)) ne); congr nrm.
by apply: functional_extensionality => i; rewrite pAV.
Qed.

Lemma pt0 x : 0 <= prior x * tgt x. Proof. by apply: mulr_ge0 => //; exact: tgt_ge0. Qed.

Theorem xtp_keeps key f : good_mover mv ->
  \sum_x prior x * tgt x * E (pafter key x) f = \sum_x prior x * tgt x * f (Some (init x)).
Proof. exact: (multi0_keeps (K := pafter key) (out := fun x => Some (init x)) mv_rel pt0 (fun x f => @tp_law key x f) (tL1 N g scale noiseP postP) pAL pA_rel pA0). Qed.

Theorem xtp_near key f c eps : near_mover c eps -> (forall o, `|f o| <= c) ->
  `|\sum_x prior x * tgt x * E (pafter key x) f - \sum_x prior x * tgt x * f (Some (init x))|
  <= \sum_x prior x * tgt x * eps.
Proof.
move=> H; apply: (multi0_near (K := pafter key) (out := fun x => Some (init x)) mv_rel pt0 (fun x f => @tp_law key x f) (tL1 N g scale noiseP postP) pAL pA_rel pA0).
exact: H.
Qed.
End Tp.
End Kernels.
