(** * ErgodicChain: from one step of a kernel on trajectories and indices to the long run of its trajectories. *)
From Coq Require Import Reals Lra FunctionalExtensionality.
From mathcomp Require Import all_ssreflect all_algebra.
From Verif Require Import RInst Prog ProgTheory Resampling Spec ResamplingProofs CsmcInvariance.
From Verif Require Import DriverSpec Drivers DriverProofs ErgodicSpec ErgodicTheory ErgodicAverage.

Set Implicit Arguments.
Unset Strict Implicit.
Unset Printing Implicit Defensive.
Import GRing.Theory Num.Theory Order.TTheory.
Local Open Scope ring_scope.

Lemma sum_const (I : finType) (c : R) : \sum_(i : I) c = #|I|%:R * c.
Proof. by rewrite sumr_const mulr_natl. Qed.

Section Chain.
Variables (X : finType) (n' m : nat) (target : X -> seq X -> R).
Local Notation I := ('I_n'.+1).
Variables (kern : key -> X -> seq X -> I -> seq I -> prog (seq X * seq I)) (k0 : key).
Hypothesis target_gt0 : forall x xs, 0 < target x xs.
Hypothesis sizes : forall key x0 xs b0 bs, size xs = m -> size bs = m ->
  always (fun r => size r.1 = m.+1 /\ size r.2 = m.+1) (kern key x0 xs b0 bs).
Hypothesis total : forall key x0 xs b0 bs, size xs = m -> size bs = m -> E (kern key x0 xs b0 bs) (fun _ => 1) = 1.
Hypothesis free : forall key key' x0 xs b0 bs b0' bs' (f : seq X -> R), size xs = m -> size bs = m -> size bs' = m ->
  E (kern key x0 xs b0 bs) (fun r => f r.1) = E (kern key' x0 xs b0' bs') (fun r => f r.1).
Hypothesis reach : forall key x0 xs b0 bs ys, size xs = m -> size bs = m -> size ys = m.+1 ->
  0 < Pr (kern key x0 xs b0 bs) (fun r => r.1 == ys).

Local Notation Y := (m.+1.-tuple X).
Definition one_step (y : Y) (f : seq X -> R) : R :=
  E (kern k0 (thead y) (behead y) ord0 (nseq m ord0)) (fun r => f r.1).
Definition p (y z : Y) : R := one_step y (fun xs => (xs == z)%:R).

Lemma size_behead_Y (y : Y) : size (behead y) = m.
Proof. by rewrite size_behead size_tuple. Qed.

Lemma one_stepE y f : one_step y f = \sum_z p y z * f z.
Proof.
rewrite /p /one_step.
under eq_bigr => z _ do rewrite mulrC -E_scale.
rewrite -E_sum; apply: eq_E_always.
apply: always_imp (sizes k0 (thead y) ord0 (size_behead_Y y) (size_nseq _ _)) => r [s1 _] /=.
have -> : r.1 = val (Tuple (introT eqP s1)) by [].
rewrite (bigD1 (Tuple (introT eqP s1))) //= eqxx mulr1 big1 ?addr0 // => z zr.
rewrite (_ : (r.1 == z) = false) ?mulr0 //; apply/negbTE; apply: contra zr => /eqP e.
by apply/eqP; apply: val_inj.
Qed.

Lemma p1 y : \sum_z p y z = 1.
Proof.
have := one_stepE y (fun=> 1); rewrite /one_step total ?size_behead_Y ?size_nseq // => ->.
by apply: eq_bigr => z _; rewrite mulr1.
Qed.

Lemma p_gt0 y z : 0 < p y z.
Proof. by apply: reach; rewrite ?size_behead_Y ?size_nseq ?size_tuple. Qed.

Definition low : R := \big[Num.min/1]_(yz : Y * Y) p yz.1 yz.2.

Lemma low_gt0 : 0 < low.
Proof. by rewrite /low; elim/big_rec: _ => [|yz x _ h]; rewrite ?ltr01 // lt_minr h p_gt0. Qed.

Lemma low_le y z : low <= p y z.
Proof.
rewrite /low; have := mem_index_enum (y, z); elim: (index_enum _) => [|yz r IH] //.
rewrite inE big_cons => /orP [/eqP <-|h]; first by rewrite le_minl lexx.
by rewrite le_minl IH ?orbT.
Qed.

Lemma chain_iter keys x0 xs b0 bs (f : seq X -> R) (y : Y) : val y = x0 :: xs -> size bs = m ->
  E (after (on_pairs kern) keys (x0 :: xs, b0 :: bs)) (fun s => f s.1)
  = iter (size keys) (pstep p) (fun z : Y => f z) y.
Proof.
elim: keys x0 xs b0 bs y => [|k keys IH] x0 xs b0 bs y ey sb /=; first by rewrite ey.
have sx : size xs = m by have := size_tuple y; rewrite ey => -[].
rewrite E_bind /pstep -/(pstep p).
pose g (zs : seq X) : R := if insub zs is Some z then iter (size keys) (pstep p) (fun z : Y => f z) z else 0.
have gE (z : Y) : g z = iter (size keys) (pstep p) (fun z : Y => f z) z by rewrite /g valK.
transitivity (E (kern k x0 xs b0 bs) (fun r => g r.1)).
  apply: eq_E_always; apply: always_imp (sizes k x0 b0 sx sb) => -[zs cs] /= [s1 s2].
  case: zs s1 => // z0 zs s1; case: cs s2 => // c0 cs [s2].
  by rewrite (IH _ _ _ _ (Tuple (introT eqP s1))) // -gE.
rewrite (free k k0 x0 b0 ord0 g sx sb (size_nseq m ord0)).
have e1 : thead y = x0 by rewrite /thead (tnth_nth x0) ey.
have e2 : behead y = xs by rewrite ey.
have := one_stepE y g; rewrite /one_step e1 e2 => ->.
by apply: eq_bigr => z _; rewrite gE.
Qed.

Lemma forgets_of (y0 : Y) : forgets_start m kern.
Proof.
exists (rate [finType of Y] low); first by rewrite (rate_gt0 low_gt0 y0) (rate_le1 p1 low_le y0).
move=> keys keys' x0 xs b0 bs z0 zs c0 cs f c sk sx sb sz sc fc.
have h1 : size (x0 :: xs) == m.+1 by rewrite /= sx.
have h2 : size (z0 :: zs) == m.+1 by rewrite /= sz.
rewrite (@chain_iter keys x0 xs b0 bs f (Tuple h1)) // (@chain_iter keys' z0 zs c0 cs f (Tuple h2)) // -sk.
have [|lo b] := @iter_band _ p low p1 low_le (fun z : Y => f z) (- c) (2%:R * c) (size keys).
  move=> z; have := fc z; rewrite ler_norml => /andP [k1 k2]; apply/andP; split=> //.
  by apply: le_trans k2 _; toR; lra.
move: (b (Tuple h1)) (b (Tuple h2)); rewrite [_ * (2%:R * c)]mulrC.
move: (iter _ _ _ _) (iter _ _ _ _) => u v /andP [u1 u2] /andP [v1 v2].
rewrite ler_norml; apply/andP; split.
  by rewrite ler_subr_addr; apply: le_trans _ u1; rewrite addrC ler_subl_addr.
by rewrite ler_subl_addr; apply: le_trans u2 _; rewrite addrC ler_add2l.
Qed.

Lemma path_sumE F : path_sum m F = \sum_(y : Y) F (thead y) (behead y).
Proof.
rewrite /path_sum pair_big /= (reindex (fun p : X * m.-tuple X => [tuple of p.1 :: p.2])) /=.
  by apply: eq_bigr => -[x t].
exists (fun t : Y => (thead t, [tuple of behead t])) => [[x t] _|t _] /=.
  by congr (_, _); apply: val_inj.
by rewrite [RHS]tuple_eta; apply: val_inj.
Qed.

Lemma traj_path (F : X -> seq X -> R) :
  traj_sum m (fun x0 xs (_ : I) (_ : seq I) => F x0 xs) = (#|I| * #|{: m.-tuple I}|)%:R * path_sum m F.
Proof.
rewrite /traj_sum /path_sum mulr_sumr; apply: eq_bigr => x0 _; rewrite sum_const natrM -mulrA; congr (_ * _).
by rewrite mulr_sumr; apply: eq_bigr => xs _; rewrite sum_const.
Qed.

Definition mass : R := path_sum m target.

Lemma idx_gt0 : (0 : R) < (#|I| * #|{: m.-tuple I}|)%:R.
Proof.
by rewrite ltr0n muln_gt0 card_ord /=; apply/card_gt0P; exists (nseq_tuple m ord0).
Qed.

Lemma forgets (y0 : Y) (d : R) : 0 <= d -> (forall c, nearly_invariant m target (kern k0) c (d * c)) ->
  exists2 e, 0 < e <= 1 & forall t (y : Y) (f : seq X -> R) c, (forall xs, `|f xs| <= c) ->
    `|path_mean m target f| <= c /\
    `|iter t (pstep p) (fun z : Y => f z) y - path_mean m target f| <= 2%:R * c * (1 - e) ^+ t + d * c / e.
Proof.
move=> d0 near.
have mass_gt0 : 0 < mass.
  rewrite /mass path_sumE (bigD1 y0) //=; apply: ltr_paddr; last exact: target_gt0.
  by apply: sumr_ge0 => y _; exact: ltW.
pose pi (y : Y) := target (thead y) (behead y) / mass.
have pi0 y : 0 <= pi y by apply: divr_ge0; exact: ltW.
have pi1 : \sum_y pi y = 1 by rewrite /pi -mulr_suml -path_sumE divff ?gt_eqF.
have meanE (f : seq X -> R) : mean pi (fun y : Y => f y) = path_mean m target f.
  rewrite /mean /path_mean path_sumE mulr_suml; apply: eq_bigr => y _.
  rewrite /pi -!mulrA; congr (_ * _); rewrite mulrC; congr (f _ * _).
  by rewrite [in LHS](tuple_eta y).
have nr (g : Y -> R) c : (forall y : Y, `|g y| <= c) -> `|mean pi (pstep p g) - mean pi g| <= d * c.
  move=> gc.
  have c0 : 0 <= c by apply: le_trans (gc y0).
  pose h (zs : seq X) : R := if insub zs is Some z then g z else 0.
  have hE (z : Y) : h z = g z by rewrite /h valK.
  have hc (zs : seq X) (_ : seq I) : `|h zs| <= c by rewrite /h; case: insubP => [z _ _|_]; rewrite ?normr0.
  have := near c (fun zs _ => h zs) hc.
  rewrite (_ : traj_sum m (fun x0 xs b0 bs => target x0 xs * E (kern k0 x0 xs b0 bs) (fun r => h r.1))
    = (#|I| * #|{: m.-tuple I}|)%:R * path_sum m (fun x0 xs => target x0 xs * E (kern k0 x0 xs ord0 (nseq m ord0)) (fun r => h r.1))); last first.
    rewrite -traj_path; apply: eq_bigr => x0 _; apply: eq_bigr => b0 _; apply: eq_bigr => xs _; apply: eq_bigr => bs _.
    by rewrite (free k0 k0 x0 b0 ord0 h (bs' := nseq m ord0)) ?size_tuple ?size_nseq.
  rewrite (traj_path (fun x0 xs => target x0 xs * h (x0 :: xs))) (traj_path (fun x0 xs => target x0 xs * (d * c))).
  rewrite -mulrBr normrM (ger0_norm (ltW idx_gt0)) ler_pmul2l ?idx_gt0 //.
  rewrite !path_sumE -mulr_suml -path_sumE -/mass => H.
  rewrite -(ler_pmul2l mass_gt0); apply: le_trans H.
  rewrite -{1}(ger0_norm (ltW mass_gt0)) -normrM mulrBr /mean !mulr_sumr.
  rewrite le_eqVlt; apply/orP; left; apply/eqP; congr (`|_ - _|); apply: eq_bigr => y _; rewrite /pi mulrA mulrCA divff ?gt_eqF // mulr1; congr (_ * _).
    by rewrite /pstep -/(one_step y h) one_stepE; apply: eq_bigr => z _; rewrite hE.
  by rewrite -hE [in LHS](tuple_eta y).
exists (rate [finType of Y] low).
  rewrite (rate_gt0 low_gt0 y0) (rate_le1 p1 low_le y0) //.
move=> t y f c fc; rewrite -meanE; split; last exact: (doeblin p1 low_le low_gt0 pi0 pi1 d0 nr).
rewrite ler_norml; apply: (mean_band pi0 pi1) => z; by rewrite -ler_norml.
Qed.

Lemma chain_along keys x0 xs b0 bs (F : seq (seq X) -> R) (y : Y) : val y = x0 :: xs -> size bs = m ->
  E (visited (on_pairs kern) keys (x0 :: xs, b0 :: bs)) (fun l => F [seq s.1 | s <- l])
  = along p (size keys) (fun l : seq Y => F (map val l)) y.
Proof.
elim: keys x0 xs b0 bs y F => [|k keys IH] x0 xs b0 bs y F ey sb //=.
have sx : size xs = m by have := size_tuple y; rewrite ey => -[].
rewrite E_bind.
pose g (zs : seq X) : R := if insub zs is Some z then along p (size keys) (fun l : seq Y => F (zs :: map val l)) z else 0.
have gE (z : Y) : g z = along p (size keys) (fun l : seq Y => F (val z :: map val l)) z by rewrite /g valK.
transitivity (E (kern k x0 xs b0 bs) (fun r => g r.1)).
  apply: eq_E_always; apply: always_imp (sizes k x0 b0 sx sb) => -[zs cs] /= [s1 s2].
  case: zs s1 => // z0 zs s1; case: cs s2 => // c0 cs [s2].
  rewrite E_bind (_ : z0 :: zs = val (Tuple (introT eqP s1))) // gE.
  by rewrite -(IH z0 zs c0 cs (Tuple (introT eqP s1)) (fun l => F ((z0 :: zs) :: l))).
rewrite (free k k0 x0 b0 ord0 g sx sb (size_nseq m ord0)).
have e1 : thead y = x0 by rewrite /thead (tnth_nth x0) ey.
have e2 : behead y = xs by rewrite ey.
have := one_stepE y g; rewrite /one_step e1 e2 => ->.
by apply: eq_bigr => z _; rewrite gE.
Qed.

Lemma size_thinned (A : Type) (d : A) k (s : seq A) : size (thinned d k s) = ((size s + k.-1) %/ k)%N.
Proof. by rewrite size_map size_iota. Qed.

Lemma size_mask_every k t : (0 < k)%N -> count id [seq (k %| i)%N | i <- iota 0 t] = ((t + k.-1) %/ k)%N.
Proof.
move=> k_gt0; have := size_thinned tt k (nseq t tt); rewrite -everyE // /every size_nseq.
by rewrite size_mask // size_map size_iota size_nseq.
Qed.

Lemma settles_of (y0 : Y) (bias : R -> R) (d : R) : 0 <= d -> (forall c, bias c = d * c) ->
  (forall c, nearly_invariant m target (kern k0) c (d * c)) -> settles m target kern bias.
Proof.
move=> d0 eb near; split; first exact: sizes.
split.
  move=> keys x0 xs b0 bs F sx sb F0; have sz : size (x0 :: xs) == m.+1 by rewrite /= sx.
  rewrite (@chain_along keys x0 xs b0 bs F (Tuple sz)) //; apply: along_ge0 => // y z; exact: ltW (p_gt0 y z).
have [e e01 H] := forgets y0 d0 near; exists e => //.
have [e_gt0 e_le1] := andP e01.
split=> [keys x0 xs b0 bs f c sx sb fc|keys k x0 xs b0 bs f c sx sb fc k_gt0 n_gt0].
  have sz : size (x0 :: xs) == m.+1 by rewrite /= sx.
  rewrite (@chain_iter keys x0 xs b0 bs f (Tuple sz)) // eb.
  by case: (H (size keys) (Tuple sz) f c fc).
have sz : size (x0 :: xs) == m.+1 by rewrite /= sx.
have c0 : 0 <= c by apply: le_trans (fc [::]).
pose mu := path_mean m target f; pose N := ((size keys + k.-1) %/ k)%N.
pose bits := [seq (k %| i)%N | i <- iota 0 (size keys)].
have sb' : size bits = size keys by rewrite size_map size_iota.
have cN : count id bits = N by rewrite size_mask_every.
have N0 : (0 < N)%N by rewrite divn_gt0 //; case: (k) (size keys) k_gt0 n_gt0 => // k' [|s] //= _ _; rewrite addSn ltnS leq_addl.
pose g (z : Y) := f z - mu.
have gm t y : `|iter t (pstep p) g y| <= 2%:R * c * (1 - e) ^+ t + d * c / e.
  suff -> : iter t (pstep p) g y = iter t (pstep p) (fun z : Y => f z) y - mu by case: (H t y f c fc).
  elim: t y => [|t IH] y //=; rewrite {1}/pstep -[mu in RHS]mul1r -(p1 y) mulr_suml -sumrB.
  by apply: eq_bigr => z _; rewrite IH mulrBr.
have gc y : `|g y| <= 2%:R * c.
  have [h _] := H 0%N y f c fc; apply: le_trans (ler_norm_sub _ _) _; rewrite mulr2n mulrDl mul1r.
  exact: ler_add.
have b0' : 0 <= d * c / e by rewrite divr_ge0 ?mulr_ge0 // ltW.
have := mean_square (fun y z => ltW (p_gt0 y z)) p1 c0 e01 b0' gc gm (Tuple sz : Y) (bits := bits).
rewrite cN => /(_ N0); rewrite sb' -/N eb; apply: le_trans; rewrite le_eqVlt; apply/orP; left; apply/eqP.
rewrite (@chain_along keys x0 xs b0 bs (fun l => (average f (thinned [::] k l) - mu) ^+ 2) (Tuple sz)) //.
apply: eq_along_size => l sl; congr (_ ^+ 2).
rewrite /average size_thinned size_map sl -/N -everyE // /every size_map sl -/bits -map_mask big_map.
have Nn : (N%:R : R) != 0 by rewrite pnatr_eq0 -lt0n.
rewrite -[mu in LHS](mulfK Nn) -mulrBl; congr (_ / _).
rewrite /total_of /g sumrB; congr (_ - _).
by rewrite big_const_seq count_predT size_mask ?cN ?sl // iter_addr addr0 mulr_natr.
Qed.

End Chain.
