(** * AcceptProofs: averages over the moves of a chain of trajectories and indices. *)
From Coq Require Import Reals Lra FunctionalExtensionality.
From mathcomp Require Import all_ssreflect all_algebra.
From Verif Require Import RInst Prog ProgTheory Spec DriverSpec Drivers DriverProofs ErgodicSpec ErgodicTheory ErgodicAverage.
From Verif Require Import SweepTheory ErgodicChain ErgodicCsmc ErgodicFinal AcceptSpec.

Set Implicit Arguments.
Unset Strict Implicit.
Unset Printing Implicit Defensive.
Import GRing.Theory Num.Theory Order.TTheory.
Local Open Scope ring_scope.

Lemma E_norm_le A (p : prog A) f c : proper p -> (forall a, `|f a| <= c) -> `|E p f| <= c.
Proof.
move=> pp fc; rewrite ler_norml -{2}(E_const c pp) -(E_const (- c) pp).
by apply/andP; split; apply: E_le => // a; have := fc a; rewrite ler_norml => /andP [].
Qed.

Section Moves.
Variables (X : finType) (n' m : nat) (target : X -> seq X -> R) (bias : R -> R).
Local Notation I := ('I_n'.+1).
Variable kern : key -> X -> seq X -> I -> seq I -> prog (seq X * seq I).
Hypothesis sizes : forall key x0 xs b0 bs, size xs = m -> size bs = m ->
  always (fun r => size r.1 = m.+1 /\ size r.2 = m.+1) (kern key x0 xs b0 bs).
Hypothesis jf : index_free m kern.
Hypothesis pr : forall key x0 xs b0 bs, proper (kern key x0 xs b0 bs).

Local Notation Y := (m.+1.-tuple X).
Local Notation C := (m.+1.-tuple bool).
Local Notation Z := (Y * Y * C)%type.
Let k0 : key := [::].
Local Notation zeros := (nseq m.+1 (ord0 : I)).

Definition mstep (y : Y) (F : move X -> R) : R :=
  E (kern k0 (thead y) (behead y) ord0 (nseq m ord0)) (fun r => F (move_of (val y, zeros) r)).
Definition q0 (y : Y) (z : Y * C) : R := mstep y (fun v => (v.1.2 == val z.1)%:R * (v.2 == val z.2)%:R).
Definition q (a b : Z) : R := (b.1.1 == a.1.2)%:R * q0 a.1.2 (b.1.2, b.2).
Definition as_move (a : Z) : move X := (val a.1.1, val a.1.2, val a.2).

Lemma size_changes (a b : seq I) : size (changes a b) = minn (size a) (size b).
Proof. by rewrite size_map size_zip. Qed.

Lemma mstepE y F : mstep y F = \sum_(z : Y * C) q0 y z * F (val y, val z.1, val z.2).
Proof.
rewrite /q0 /mstep; under eq_bigr => z _ do rewrite mulrC -E_scale.
rewrite -E_sum; apply: eq_E_always.
apply: always_imp (sizes k0 (thead y) ord0 (size_behead_Y y) (size_nseq _ _)) => r [s1 s2] /=.
have s3 : size (changes zeros r.2) == m.+1 by rewrite size_changes size_nseq s2 minnn.
rewrite (bigD1 (Tuple (introT eqP s1), Tuple s3)) //= /move_of /= !eqxx !mulr1 big1 ?addr0 // => z zr.
case: (r.1 =P val z.1) => [e1|]; last by rewrite mul0r mulr0.
case: (changes zeros r.2 =P val z.2) => [e2|]; last by rewrite !mulr0.
by case/eqP: zr; case: z e1 e2 => z c /= e1 e2; congr (_, _); apply: val_inj.
Qed.

Lemma q0_ge0 y z : 0 <= q0 y z.
Proof. by apply: E_ge0 => // r; rewrite mulr_ge0 ?ler0n. Qed.

Lemma q0_sum y : \sum_z q0 y z = 1.
Proof.
have := mstepE y (fun=> 1); rewrite /mstep E_const // => ->.
by apply: eq_bigr => z _; rewrite mulr1.
Qed.

Lemma qstep g a : pstep q g a = \sum_(z : Y * C) q0 a.1.2 z * g (a.1.2, z.1, z.2).
Proof.
rewrite /pstep /q !sum_pairs (bigD1 a.1.2) //= [X in _ + X]big1 ?addr0; last first.
  by move=> x /negbTE xa; apply: big1 => y _; apply: big1 => c _; rewrite xa !mul0r.
by apply: eq_bigr => y _; apply: eq_bigr => c _; rewrite eqxx mul1r.
Qed.

Lemma q_ge0 a b : 0 <= q a b.
Proof. by rewrite mulr_ge0 ?ler0n ?q0_ge0. Qed.

Lemma q_sum a : \sum_b q a b = 1.
Proof.
have := qstep (fun=> 1) a; rewrite /pstep; under eq_bigr do rewrite mulr1; move=> ->.
by under eq_bigr do rewrite mulr1; exact: q0_sum.
Qed.

Lemma one_move key x0 xs b0 bs (y : Y) (F : move X -> R) : val y = x0 :: xs -> size bs = m ->
  E (kern key x0 xs b0 bs) (fun r => F (move_of (x0 :: xs, b0 :: bs) r)) = mstep y F.
Proof.
move=> ey sb; have sx : size xs = m by have := size_tuple y; rewrite ey => -[].
have e1 : thead y = x0 by rewrite /thead (tnth_nth x0) ey.
have e2 : behead y = xs by rewrite ey.
by rewrite (jf key k0 x0 b0 ord0 F sx sb (size_nseq m ord0)) /mstep e1 e2 ey.
Qed.

Lemma after_iter keys x0 xs b0 bs (f : seq X -> R) (a : Z) : val a.1.2 = x0 :: xs -> size bs = m ->
  E (after (on_pairs kern) keys (x0 :: xs, b0 :: bs)) (fun s => f s.1)
  = iter (size keys) (pstep q) (fun b => f (val b.1.2)) a.
Proof.
elim: keys x0 xs b0 bs a => [|k keys IH] x0 xs b0 bs a ea sb /=; first by rewrite ea.
have sx : size xs = m by have := size_tuple a.1.2; rewrite ea => -[].
rewrite E_bind qstep.
pose g (v : move X) : R := if insub v.1.2 is Some z then
  (if insub v.2 is Some c then iter (size keys) (pstep q) (fun b => f (val b.1.2)) (a.1.2, z, c) else 0) else 0.
transitivity (E (kern k x0 xs b0 bs) (fun r => g (move_of (x0 :: xs, b0 :: bs) r))).
  apply: eq_E_always; apply: always_imp (sizes k x0 b0 sx sb) => -[zs cs] /= [s1 s2].
  have s3 : size (changes (b0 :: bs) cs) == m.+1 by rewrite size_changes /= sb s2 minnn.
  rewrite /g /= (insubT (fun s => size s == m.+1) (introT eqP s1)) (insubT (fun s => size s == m.+1) s3).
  case: zs s1 => // z0 zs s1; case: cs s2 s3 => // c0 cs [s2] s3.
  exact: IH.
rewrite (one_move k b0 g ea sb) mstepE; apply: eq_bigr => -[z c] _.
by rewrite /g /= !valK.
Qed.

Lemma moves_along keys x0 xs b0 bs (G : seq (move X) -> R) (a : Z) : val a.1.2 = x0 :: xs -> size bs = m ->
  E (visited (on_pairs kern) keys (x0 :: xs, b0 :: bs)) (fun l => G (moves (x0 :: xs, b0 :: bs) l))
  = along q (size keys) (fun l => G (map as_move l)) a.
Proof.
elim: keys x0 xs b0 bs a G => [|k keys IH] x0 xs b0 bs a G ea sb //.
have sx : size xs = m by have := size_tuple a.1.2; rewrite ea => -[].
rewrite [LHS]E_bind [RHS](_ : _ = pstep q (fun z => along q (size keys) (fun l => G (as_move z :: map as_move l)) z) a) // qstep.
pose g (v : move X) : R := if insub v.1.2 is Some z then
  (if insub v.2 is Some c then along q (size keys) (fun l => G (v :: map as_move l)) (a.1.2, z, c) else 0) else 0.
transitivity (E (kern k x0 xs b0 bs) (fun r => g (move_of (x0 :: xs, b0 :: bs) r))).
  apply: eq_E_always; apply: always_imp (sizes k x0 b0 sx sb) => -[zs cs] /= [s1 s2].
  have s3 : size (changes (b0 :: bs) cs) == m.+1 by rewrite size_changes /= sb s2 minnn.
  rewrite /g /= (insubT (fun s => size s == m.+1) (introT eqP s1)) (insubT (fun s => size s == m.+1) s3).
  case: zs s1 => // z0 zs s1; case: cs s2 s3 => // c0 cs [s2] s3.
  rewrite E_bind -(IH z0 zs c0 cs _ (fun l => G (move_of (x0 :: xs, b0 :: bs) (z0 :: zs, c0 :: cs) :: l))) //.
rewrite (one_move k b0 g ea sb) mstepE; apply: eq_bigr => -[z c] _.
by rewrite /g /= !valK.
Qed.

Hypothesis bias0 : forall c, 0 <= c -> 0 <= bias c.
Variable e : R.
Hypotheses (e01 : 0 < e <= 1) (cv : converges m target kern bias e).
Hypothesis mean_le : forall (f : seq X -> R) c, (forall xs, `|f xs| <= c) -> `|path_mean m target f| <= c.

Lemma moves_average : move_averages m target kern bias e.
Proof.
have [e_gt0 e_le1] := andP e01.
move=> keys k x0 xs b0 bs F c sx sb Fc k_gt0 n_gt0.
have sz : size (x0 :: xs) == m.+1 by rewrite /= sx.
have c0 : 0 <= c by apply: le_trans (Fc ([::], [::], [::])).
pose mu := move_mean m target kern F; pose N := ((size keys + k.-1) %/ k)%N.
pose bits := [seq (k %| i)%N | i <- iota 0 (size keys)].
have sb' : size bits = size keys by rewrite size_map size_iota.
have cN : count id bits = N by rewrite size_mask_every.
have N0 : (0 < N)%N by rewrite divn_gt0 //; case: (k) (size keys) k_gt0 n_gt0 => // k' [|s] //= _ _; rewrite addSn ltnS leq_addl.
pose H (xs : seq X) := E (on_pairs kern k0 (xs, zeros)) (fun r => F (move_of (xs, zeros) r)).
have Hc zs : `|H zs| <= c by apply: E_norm_le => //; case: zs => [|z zs] /=.
have muc : `|mu| <= c by exact: mean_le.
pose g (z : Z) := F (as_move z) - mu.
have gc z : `|g z| <= 2%:R * (2%:R * c).
  apply: le_trans (ler_norm_sub _ _) _; apply: le_trans (ler_add (Fc _) muc) _.
  by toR; lra.
have gs z : pstep q g z = H (val z.1.2) - mu.
  rewrite qstep /g; under eq_bigr do rewrite mulrBr.
  rewrite sumrB -mulr_suml q0_sum mul1r; congr (_ - _).
  rewrite -(mstepE z.1.2 F) /mstep /H.
  have ez : val z.1.2 = thead z.1.2 :: behead z.1.2 by rewrite {1}(tuple_eta z.1.2).
  by rewrite {2}ez.
have gm t z : `|iter t (pstep q) g z| <= 2%:R * (2%:R * c) * (1 - e / 2%:R) ^+ t + bias c / e.
  have b0' : 0 <= bias c / e by rewrite divr_ge0 ?bias0 // ltW.
  case: t => [|t]; first by rewrite expr0 mulr1 /=; apply: le_trans (gc z) _; rewrite ler_addl.
  rewrite iterSr (_ : pstep q g = fun z => H (val z.1.2) - mu); last exact: functional_extensionality.
  have -> : iter t (pstep q) (fun z => H (val z.1.2) - mu) z = iter t (pstep q) (fun z => H (val z.1.2)) z - mu.
    elim: t z => [|t IH] z //=; rewrite {1}/pstep -[mu in RHS]mul1r -(q_sum z) mulr_suml -sumrB.
    by apply: eq_bigr => b _; rewrite IH mulrBr.
  have ez : val z.1.2 = thead z.1.2 :: behead z.1.2 by rewrite {1}(tuple_eta z.1.2).
  have := @cv (nseq t k0) (thead z.1.2) (behead z.1.2) ord0 (nseq m ord0) H c (size_behead_Y _) (size_nseq _ _) Hc.
  rewrite (after_iter (nseq t k0) ord0 H ez (size_nseq _ _)) size_nseq => h; apply: le_trans h _.
  rewrite ler_add2r -!mulrA; apply: ler_wpmul2l; rewrite ?ler0n // mulrCA; apply: ler_wpmul2l => //.
  rewrite exprS mulrA; apply: le_trans (_ : (1 - e / 2%:R) ^+ t <= _).
    apply: ler_expn2r; rewrite ?nnegrE ?subr_ge0 //.
      by toR; lra.
    by rewrite ler_add2l ler_opp2; toR; lra.
  rewrite ler_pemull //; first by apply: exprn_ge0; toR; lra.
  by toR; lra.
have b0' : 0 <= bias c / e by rewrite divr_ge0 ?bias0 // ltW.
have e01' : 0 < e / 2%:R <= 1 by apply/andP; split; toR; lra.
pose a : Z := (Tuple sz : Y, Tuple sz : Y, nseq_tuple m.+1 false).
have c0' : 0 <= 2%:R * c by rewrite mulr_ge0 ?ler0n.
have := mean_square q_ge0 q_sum c0' e01' b0' gc gm a (bits := bits).
rewrite cN => /(_ N0); rewrite sb' -/N => h.
have -> : 16%:R * c ^+ 2 * (1 + 4%:R / e) / N%:R + 8%:R * c * (bias c / e)
   = 4%:R * (2%:R * c) ^+ 2 * (1 + 2%:R / (e / 2%:R)) / N%:R + 4%:R * (2%:R * c) * (bias c / e).
  have -> : 2%:R / (e / 2%:R) = 4%:R / e :> R by rewrite invf_div mulrA -natrM.
  have alg (u v w : R) : 16%:R * c ^+ 2 * u * v + 8%:R * c * w = 4%:R * (2%:R * c) ^+ 2 * u * v + 4%:R * (2%:R * c) * w.
    by rewrite !expr2; Rring.
  exact: alg.
apply: le_trans h; rewrite le_eqVlt; apply/orP; left; apply/eqP.
rewrite (@moves_along keys x0 xs b0 bs (fun l => (average F (thinned ([::], [::], [::]) k l) - mu) ^+ 2) a) //.
apply: eq_along_size => l sl; congr (_ ^+ 2).
rewrite /average size_thinned size_map sl -/N -everyE // /every size_map sl -/bits -map_mask big_map.
have Nn : (N%:R : R) != 0 by rewrite pnatr_eq0 -lt0n.
rewrite -[mu in LHS](mulfK Nn) -mulrBl; congr (_ / _).
rewrite /total_of /g sumrB; congr (_ - _).
by rewrite big_const_seq count_predT size_mask ?cN ?sl // iter_addr addr0 mulr_natr.
Qed.
End Moves.

Lemma path_mean_norm (X : finType) (m : nat) (target : X -> seq X -> R) (f : seq X -> R) c :
  (forall x xs, 0 < target x xs) -> (forall xs, `|f xs| <= c) -> `|path_mean m target f| <= c.
Proof.
move=> t0 fc; rewrite /path_mean !path_sumE.
have s0 : 0 <= \sum_(y : m.+1.-tuple X) target (thead y) (behead y) by apply: sumr_ge0 => y _; exact: ltW.
case: (ltP 0 (\sum_(y : m.+1.-tuple X) target (thead y) (behead y))) => [s1|s1]; last first.
  have -> : \sum_(y : m.+1.-tuple X) target (thead y) (behead y) = 0 by apply/eqP; rewrite eq_le s0 s1.
  by rewrite invr0 mulr0 normr0; apply: le_trans (fc [::]).
rewrite normrM normfV (ger0_norm s0) ler_pdivr_mulr // mulrC mulr_suml; apply: le_trans (ler_norm_sum _ _ _) _.
apply: ler_sum => y _; rewrite normrM (ger0_norm (ltW (t0 _ _))).
by apply: ler_wpmul2l => //; exact: ltW.
Qed.

Lemma visited_proper (S : Type) (K : key -> S -> prog S) keys s : (forall k s, proper (K k s)) -> proper (visited K keys s).
Proof.
by move=> pK; elim: keys s => [|k keys IH] s //=; apply: proper_bind => // s'; apply: proper_bind.
Qed.

Lemma settles_of_moves (X : finType) (n' m : nat) (target : X -> seq X -> R) (bias : R -> R)
    (kern : key -> X -> seq X -> 'I_n'.+1 -> seq 'I_n'.+1 -> prog (seq X * seq 'I_n'.+1)) :
  (forall x xs, 0 < target x xs) -> (forall c, 0 <= c -> 0 <= bias c) ->
  (forall key x0 xs b0 bs, proper (kern key x0 xs b0 bs)) ->
  (forall key key' x0 xs b0 bs b0' bs' (f : seq X -> seq bool -> R), size xs = m -> size bs = m -> size bs' = m ->
     E (kern key x0 xs b0 bs) (fun r => f r.1 (rchanges (b0 :: bs) r.2))
     = E (kern key' x0 xs b0' bs') (fun r => f r.1 (rchanges (b0' :: bs') r.2))) ->
  settles m target kern bias -> settles_moves m target kern bias.
Proof.
move=> t0 b0 pr jr [sizes [_ [e e01 [cv _]]]].
have jf : index_free m kern.
  move=> key key' x0 xs c0 bs c0' bs' F sx sb sb'.
  have rw k d0 (ds : seq 'I_n'.+1) : size ds = m ->
      E (kern k x0 xs d0 ds) (fun r => F (move_of (x0 :: xs, d0 :: ds) r))
      = E (kern k x0 xs d0 ds) (fun r => F (x0 :: xs, r.1, rchanges (d0 :: ds) r.2)).
    move=> sd; apply: eq_E_always; apply: always_imp (sizes k x0 xs d0 ds sx sd) => r [_ s2].
    by rewrite /move_of /= rchangesE //= sd s2.
  by rewrite !rw //; exact: (jr key key' x0 xs c0 bs c0' bs' (fun us cs => F (x0 :: xs, us, cs))).
split=> //; exists e => //; apply: moves_average => // f c fc; exact: path_mean_norm.
Qed.

(** ** The sampling loop *)
Section Loop.
Variables (X : finType) (n' m : nat) (target : X -> seq X -> R) (bias : R -> R).
Local Notation I := ('I_n'.+1).
Variable kern : key -> X -> seq X -> I -> seq I -> prog (seq X * seq I).
Hypothesis sizes : forall key x0 xs b0 bs, size xs = m -> size bs = m ->
  always (fun r => size r.1 = m.+1 /\ size r.2 = m.+1) (kern key x0 xs b0 bs).

Local Notation flags := ('I_m.+1 -> bool).
Definition recorded (a b : seq X * ('I_m.+1 -> I)) : seq X * flags := (b.1, fun t => b.2 t != a.2 t).
Local Notation of_move := (@of_move X m).

Lemma visited_moves keys (s : seq X) (B : 'I_m.+1 -> I) (G : seq (seq X * flags) -> R) : size s = m.+1 ->
  E (visited (indexed kern) keys (s, B)) (fun l => G (pairmap recorded (s, B) l))
  = E (visited (on_pairs kern) keys (s, [seq B t | t <- enum 'I_m.+1]))
      (fun l => G [seq of_move v | v <- moves (s, [seq B t | t <- enum 'I_m.+1]) l]).
Proof.
elim: keys s B G => [|k keys IH] s B G ss //=.
have EI h : E (indexed kern k (s, B)) h
    = E (on_pairs kern k (s, [seq B t | t <- enum 'I_m.+1])) (fun r => h (r.1, fun t => nth (B t) r.2 t)).
  by rewrite /indexed E_bind.
rewrite [LHS]E_bind [RHS]E_bind {}EI.
have Bs := size_map B (enum 'I_m.+1); rewrite size_enum_ord in Bs.
have Bn t : nth ord0 [seq B t | t <- enum 'I_m.+1] (t : 'I_m.+1) = B t by rewrite (nth_map ord0) ?size_enum_ord // nth_ord_enum.
case: s ss => // x0 xs [sx].
case: [seq B t | t <- _] Bs Bn => // b0 bs [sb] Bn /=.
apply: eq_E_always; apply: always_imp (sizes k x0 b0 sx sb) => -[zs cs] /= [s1 s2].
rewrite !E_bind /= (IH zs _ (fun l => G (recorded (x0 :: xs, B) (zs, fun t => nth (B t) cs t) :: l)) s1).
have -> : [seq nth (B t) cs t | t <- enum 'I_m.+1] = cs.
  apply: (@eq_from_nth _ b0); rewrite size_map size_enum_ord // => i lt.
  by rewrite (nth_map ord0) ?size_enum_ord // nth_enum_ord //; apply: set_nth_default; rewrite s2.
apply: eq_E => l; congr (G (_ :: _)); rewrite /recorded /of_move /move_of /=; congr (_, _).
apply: functional_extensionality => t; rewrite /changes (nth_map (ord0, ord0)); last first.
  by rewrite size_zip /= sb s2 minnn.
by rewrite nth_zip /= ?sb ?s2 // Bn eq_sym; congr (_ != _); apply: set_nth_default; rewrite s2.
Qed.

Lemma thinned_map (A B : Type) (h : A -> B) (d : A) (d' : B) k (l : seq A) : (0 < k)%N ->
  thinned d' k (map h l) = map h (thinned d k l).
Proof. by move=> k0; rewrite -!everyE // /every size_map map_mask. Qed.

Lemma zip_pairmap s (l : seq (seq X * ('I_m.+1 -> I))) :
  zip [seq x.1 | x <- l] (pairmap (fun a b => fun t : 'I_m.+1 => b.2 t != a.2 t) s l) = pairmap recorded s l.
Proof. by elim: l s => [|a l IH] s //=; rewrite IH. Qed.

Lemma thinned_zip (A B : Type) (d : A) (d' : B) k (l : seq A) (l' : seq B) : size l = size l' ->
  zip (thinned d k l) (thinned d' k l') = thinned (d, d') k (zip l l').
Proof.
move=> sl; rewrite /thinned size_zip -sl minnn.
elim: (iota _ _) => [|j s IH] //=; by rewrite IH nth_zip.
Qed.

Lemma loopE key x0 xs (B : 'I_m.+1 -> I) n k (H : seq (seq X * flags) -> R) : size xs = m -> (0 < k)%N ->
  exists2 b, size b.2 = m &
  E (mcmc_sampling (indexed kern) key (x0 :: xs, B) n k) (fun out => if out is inl r then H (zip r.1 r.2) else 0)
  = E (visited (on_pairs kern) [seq split key i | i <- iota 0 n] (x0 :: xs, b.1 :: b.2))
      (fun l => H [seq of_move v | v <- thinned ([::], [::], [::]) k (moves (x0 :: xs, b.1 :: b.2) l)]).
Proof.
move=> sx k0; rewrite mcmc_samplingE E_bind /= (negbTE (_ : k != 0%N)) -?lt0n //=.
have := @visited_moves [seq split key i | i <- iota 0 n] (x0 :: xs) B (fun l => H (thinned ([::], fun=> false) k l)) (congr1 S sx).
have := size_map B (enum 'I_m.+1); rewrite size_enum_ord; case: [seq B t | t <- _] => // b0 bs [sb] e.
exists (b0, bs) => //; etransitivity; last first.
  by apply: etrans (e) _; apply: eq_E => l; rewrite (thinned_map _ ([::], [::], [::])).
apply: eq_E => l; rewrite thinned_zip ?size_map ?size_pairmap // zip_pairmap.
by rewrite -!everyE.
Qed.

Local Notation mean := (fun F => move_mean m target kern (fun v => F (of_move v))).

Lemma average_map (A B : Type) (h : A -> B) (f : B -> R) l : average f (map h l) = average (f \o h) l.
Proof. by rewrite /average big_map size_map. Qed.

Lemma loop_moves e : move_averages m target kern bias e ->
  forall key x0 xs (B : 'I_m.+1 -> I) n k (F : seq X * flags -> R) c, size xs = m -> (0 < k)%N -> (0 < n)%N ->
    (forall z, `|F z| <= c) ->
    E (mcmc_sampling (indexed kern) key (x0 :: xs, B) n k)
      (fun out => if out is inl r then (average F (zip r.1 r.2) - mean F) ^+ 2 else 0)
    <= 16%:R * c ^+ 2 * (1 + 4%:R / e) / ((n + k.-1) %/ k)%:R + 8%:R * c * (bias c / e).
Proof.
move=> av key x0 xs B n k F c sx k0 n0 Fc.
have [[b0 bs] sb ->] := @loopE key x0 xs B n k (fun l => (average F l - mean F) ^+ 2) sx k0.
under eq_E do rewrite average_map.
have := av [seq split key i | i <- iota 0 n] k x0 xs b0 bs (F \o of_move) c sx sb (fun v => Fc (of_move v)) k0.
by rewrite size_map size_iota => /(_ n0).
Qed.

Hypothesis pr : forall key x0 xs b0 bs, proper (kern key x0 xs b0 bs).

Lemma loop_moves_consistent e (c h eps : R) : 0 < e <= 1 -> (forall c, bias c = 0) ->
  move_averages m target kern bias e -> 0 < h -> 0 < eps ->
  exists N, forall key x0 xs (B : 'I_m.+1 -> I) n k (F : seq X * flags -> R), size xs = m -> (0 < k)%N -> (N * k <= n)%N ->
    (forall z, `|F z| <= c) ->
    Pr (mcmc_sampling (indexed kern) key (x0 :: xs, B) n k)
       (fun out => if out is inl r then h <= `|average F (zip r.1 r.2) - mean F| else false) <= eps.
Proof.
move=> e01 bias0 av h0 eps0; have [e0 _] := andP e01.
pose C : R := 16%:R * c ^+ 2 * (1 + 4%:R / e).
have he : 0 < h ^+ 2 * eps by rewrite mulr_gt0 ?exprn_gt0.
have [N HN] := above (C / (h ^+ 2 * eps)).
exists N.+1 => key x0 xs B n k F sx k0 nk Fc.
have n0 : (0 < n)%N by apply: leq_trans nk; rewrite muln_gt0.
pose D (l : seq (seq X * flags)) := average F l - mean F.
have -> : Pr (mcmc_sampling (indexed kern) key (x0 :: xs, B) n k)
    (fun out => if out is inl r then h <= `|average F (zip r.1 r.2) - mean F| else false)
  = E (mcmc_sampling (indexed kern) key (x0 :: xs, B) n k)
      (fun out => if out is inl r then (h <= `|D (zip r.1 r.2)|)%R%:R else 0) by apply: eq_E => -[].
have [[b0 bs] sb ->] := @loopE key x0 xs B n k (fun l => (h <= `|D l|)%R%:R) sx k0.
rewrite -(ler_pmul2l (_ : 0 < h ^+ 2)) ?exprn_gt0 // -E_scale.
have := av [seq split key i | i <- iota 0 n] k x0 xs b0 bs (F \o of_move) c sx sb (fun v => Fc (of_move v)) k0.
rewrite size_map size_iota => /(_ n0) H1; apply: le_trans (le_trans _ H1) _.
  apply: E_le => [|l]; first by apply: visited_proper => k1 [[|z zs] [|d ds]] /=.
  rewrite /D average_map; case hl : (h <= _)%R; last by rewrite (_ : false%:R = 0) // mulr0 sqr_ge0.
  rewrite (_ : true%:R = 1) // mulr1.
  rewrite -[X in _ <= X]ger0_norm ?sqr_ge0 // normrX; apply: ler_expn2r; rewrite ?nnegrE ?normr_ge0 //; exact: ltW.
have le : (N.+1 <= (n + k.-1) %/ k)%N by rewrite leq_divRL //; apply: leq_trans nk (leq_addr _ _).
rewrite bias0 mul0r mulr0 addr0 -/C ler_pdivr_mulr; last by rewrite ltr0n (leq_trans _ le).
apply: le_trans (_ : h ^+ 2 * eps * N.+1%:R <= _); last by apply: ler_wpmul2l; rewrite ?ler_nat // ltW.
rewrite mulrC -ler_pdivr_mulr //; apply: le_trans (_ : N%:R <= _); last by rewrite ler_nat.
exact: ltW.
Qed.

Lemma acceptanceE (t : 'I_m.+1) : mean (fun z => (z.2 t)%:R) = acceptance m target kern t.
Proof.
rewrite /acceptance /move_mean /path_mean; congr (_ / _); rewrite !path_sumE.
apply: eq_bigr => y _; congr (_ * _); rewrite /on_pairs /Pr /=; apply: eq_E_always.
apply: always_imp (sizes [::] (thead y) ord0 (size_behead_Y y) (size_nseq _ _)) => r [_ s2].
have -> : (changes (ord0 :: nseq m ord0) r.2) = changes (nseq m.+1 ord0) r.2 by [].
rewrite /changes (nth_map (ord0, ord0)); last by rewrite size_zip size_nseq s2 minnn.
by rewrite nth_zip ?size_nseq ?s2 // nth_nseq ltn_ord eq_sym.
Qed.
End Loop.
