(** * ErgodicTp: the long run of tp_csmc.py, atp_csmc_f.py and t_atp_csmc_f.py. *)
From Coq Require Import Reals Lra FunctionalExtensionality.
From mathcomp Require Import all_ssreflect all_algebra.
From Verif Require Import RInst Prog ProgTheory Resampling Spec ResamplingProofs MoveProofs KillingProofs ResamplingSpecs.
From Verif Require Import Csmc CsmcInvariance CsmcSpecs CsmcFinal AuxCsmc SweepTheory AuxProofs AuxFinal TpCsmc TpProofs TpFinal Twisted TwistedKernel.
From Verif Require Import ErgodicSpec ErgodicTheory ErgodicContracts ErgodicChain ErgodicCsmc ErgodicSweep ErgodicFinal.

Set Implicit Arguments.
Unset Strict Implicit.
Unset Printing Implicit Defensive.
Import GRing.Theory Num.Theory Order.TTheory.
Local Open Scope ring_scope.

(** ** A csmc kernel applied after drawing auxiliary variables *)
Section Mixture.
Variables (X : finType) (n' m : nat) (P Q : Type) (U : finType).
Local Notation n := n'.+1.
Variables (w : X -> seq X -> U -> R) (md : U -> model X n' P Q) (mu0 : U -> X -> R) (mut : U -> X -> P -> X -> R).
Variables (ps : U -> seq P) (qs : U -> seq Q) (rs : resampler n) (mv : mover n) (backward : bool).
Variable kern : key -> X -> seq X -> 'I_n -> seq 'I_n -> prog (seq X * seq 'I_n).
Hypotheses (sp : forall u, size (ps u) = m) (sq : forall u, size (qs u) = m).
Hypotheses (w_gt0 : forall x0 xs u, 0 < w x0 xs u) (w1 : forall x0 xs, size xs = m -> \sum_u w x0 xs u = 1).
Hypothesis mk : forall u, rotating_model (md u) (mu0 u) (mut u).
Hypothesis kE : forall key x0 xs b0 bs f, size xs = m -> size bs = m ->
  E (kern key x0 xs b0 bs) f
  = \sum_u w x0 xs u * E (drop_weights (kernel rs mv (md u) (split key 0) x0 xs b0 bs (ps u) (qs u) backward true)) f.
Hypotheses (mr : mixing_resampler rs) (mm : mixing_mover mv).

Lemma mix_joint key key' x0 xs b0 bs b0' bs' (f : seq X -> seq bool -> R) : size xs = m -> size bs = m -> size bs' = m ->
  E (kern key x0 xs b0 bs) (fun r => f r.1 (rchanges (b0 :: bs) r.2))
  = E (kern key' x0 xs b0' bs') (fun r => f r.1 (rchanges (b0' :: bs') r.2)).
Proof.
move=> sx sb sb'; rewrite !kE //; apply: eq_bigr => u _; congr (_ * _).
case: mr mm => gr rot _ _ [mrot _ _].
by apply: (csmc_joint backward (mk u)); rewrite ?sp ?sq.
Qed.

Lemma mix_free key key' x0 xs b0 bs b0' bs' (f : seq X -> R) : size xs = m -> size bs = m -> size bs' = m ->
  E (kern key x0 xs b0 bs) (fun r => f r.1) = E (kern key' x0 xs b0' bs') (fun r => f r.1).
Proof. by move=> sx sb sb'; exact: (mix_joint key key' x0 b0 b0' (fun us _ => f us)). Qed.

Lemma mix_total key x0 xs b0 bs : size xs = m -> size bs = m -> E (kern key x0 xs b0 bs) (fun=> 1) = 1.
Proof.
move=> sx sb; rewrite kE // -[RHS](w1 x0 sx); apply: eq_bigr => u _; rewrite -[RHS]mulr1; congr (_ * _).
case: mr mm => gr rot _ _ [mrot _ mpr].
by apply: (csmc_total backward (mk u)); rewrite ?sp ?sq.
Qed.

Lemma mix_reach (u0 : U) key x0 xs b0 bs ys : (0 < n')%N -> size xs = m -> size bs = m -> size ys = m.+1 ->
  0 < Pr (kern key x0 xs b0 bs) (fun r => r.1 == ys).
Proof.
move=> n0 sx sb sy; rewrite /Pr kE //; case: mr mm => gr rot spr _ [mrot lea mpr].
have r u : 0 < Pr (drop_weights (kernel rs mv (md u) (split key 0) x0 xs b0 bs (ps u) (qs u) backward true))
                 (fun r => r.1 == ys).
  by apply: (csmc_reach backward (mk u)); rewrite ?sp ?sq.
apply: (@sum_pos _ _ u0) => [u|]; first by apply: mulr_ge0; apply: ltW => //; exact: r.
by apply: mulr_gt0 => //; exact: r.
Qed.

Lemma mix_settles (target : X -> seq X -> R) (u0 : U) bias d : (0 < n')%N -> (0 < #|X|)%N -> 0 <= d ->
  (forall c, bias c = d * c) -> (forall x xs, 0 < target x xs) ->
  (forall key x0 xs b0 bs, size xs = m -> size bs = m ->
     always (fun r => size r.1 = m.+1 /\ size r.2 = m.+1) (kern key x0 xs b0 bs)) ->
  (forall key c, nearly_invariant m target (kern key) c (d * c)) ->
  settles m target kern bias.
Proof.
move=> n0 /card_gt0P [x _] d0 eb tpos sz near.
apply: (@settles_of X n' m _ kern [::] _ _ _ _ _ (nseq_tuple _ x) bias d) => //.
- exact: mix_total.
- exact: mix_free.
- by move=> *; exact: mix_reach.
Qed.

Lemma mix_forgets (u0 : U) : (0 < n')%N -> (0 < #|X|)%N ->
  (forall key x0 xs b0 bs, size xs = m -> size bs = m ->
     always (fun r => size r.1 = m.+1 /\ size r.2 = m.+1) (kern key x0 xs b0 bs)) ->
  forgets_start m kern.
Proof.
move=> n0 /card_gt0P [x _] sz.
apply: (@forgets_of X n' m kern [::] _ _ _ _ (nseq_tuple _ x)) => //.
- exact: mix_total.
- exact: mix_free.
- by move=> *; exact: mix_reach.
Qed.
End Mixture.

(** ** Drawing the auxiliary variables *)
Section Draw.
Variables (X : finZmodType) (Q : Type) (noise0 : X -> R) (noise : Q -> X -> R) (scale0 : X -> X) (scale : Q -> X -> X).
Variables (g0 : X -> X) (gt : X -> X -> Q -> X) (qs : seq Q).

Definition aux_weight x0 xs (u : X * (size qs).-tuple X) : R :=
  noise0 (u.1 - (x0 + scale0 (g0 x0))) * aux_law noise scale gt x0 xs qs qs u.2.

Lemma E_aux A key (x0 : X) xs (k : X -> seq X -> prog A) f : size xs = size qs ->
  E (do (e0, es) <- normals key noise0 [seq noise q | q <- qs];
     k (x0 + scale0 (g0 x0) + e0) (grad_aux scale gt x0 xs qs qs es)) f
  = \sum_u aux_weight x0 xs u * E (k u.1 u.2) f.
Proof.
move=> sx; rewrite E_bind E_normals sum_pairs.
pose G u0 us := E (k u0 us) f.
rewrite (eq_bigr (fun y => noise0 y * (\sum_(us : (size qs).-tuple X) aux_law noise scale gt x0 xs qs qs us *
   G (x0 + scale0 (g0 x0) + y) us))); last first.
  by move=> y _; rewrite -(lsum_aux _ _ _ _ (G (x0 + scale0 (g0 x0) + y))).
rewrite (sum_shift _ _ (fun u0 => \sum_(us : (size qs).-tuple X) aux_law noise scale gt x0 xs qs qs us * G u0 us)).
by apply: eq_bigr => u0 _; rewrite mulr_sumr; apply: eq_bigr => us _; rewrite mulrA.
Qed.

Hypotheses (noise0P : prob_vec noise0) (noiseP : forall q, prob_vec (noise q)).

Lemma aux_weight1 x0 xs : size xs = size qs -> \sum_u aux_weight x0 xs u = 1.
Proof.
move=> sx; rewrite sum_pairs -(proj2 (shift_vec (x0 + scale0 (g0 x0)) noise0P)).
by apply: eq_bigr => u0 _; rewrite /aux_weight /= -mulr_sumr aux_law_sum // mulr1.
Qed.

Hypotheses (noise0_gt0 : forall z, 0 < noise0 z) (noise_gt0 : forall q z, 0 < noise q z).

Lemma aux_weight_gt0 x0 xs u : 0 < aux_weight x0 xs u.
Proof. by apply: mulr_gt0 => //; exact: aux_law_gt0. Qed.
End Draw.

(** ** tp_csmc and atp_csmc_f *)
Lemma shape_lengths (X : finType) (n' m : nat) (x0 : X) xs (b0 : 'I_n'.+1) bs
    (k : prog (seq X * seq 'I_n'.+1 * seq (lwts n'))) : size xs = m -> size bs = m ->
  always (keeps_shape x0 xs b0 bs) k -> always (fun r => size r.1 = m.+1 /\ size r.2 = m.+1) (drop_weights k).
Proof.
move=> sx sb H; apply/always_bind; apply: always_imp H => r [s1 s2 _] /=.
by rewrite s1 s2 sx sb.
Qed.

Section Tp.
Variables (X : finZmodType) (n' : nat) (Q : Type).
Local Notation n := n'.+1.
Local Notation pop := (pop X n').
Variables (noise0 ld0 : X -> R) (noise ld : Q -> X -> R).
Variables (scale0 : X -> X) (scale : Q -> X -> X).
Variables (pnoise0 pld0 : X -> R) (pnoise pld : Q -> X -> R).
Variables (mean0 : X -> X) (mean : Q -> X -> X -> X).
Variables (prior0 : X -> R) (prior : X -> X -> Q -> R).
Variables (r0 : X -> R) (rt : X -> X -> Q -> R) (g0 : X -> X) (gt : X -> X -> Q -> X).
Variables (logH0 : pop -> X -> 'I_n -> R) (logH : Q -> pop -> pop -> X -> 'I_n -> R).
Variables (rs : resampler n) (qs : seq Q) (backward : bool).
Hypotheses (noise0P : prob_vec noise0) (noiseP : forall q, prob_vec (noise q)).
Hypotheses (pnoise0P : prob_vec pnoise0) (pnoiseP : forall q, prob_vec (pnoise q)).
Hypotheses (noise0_gt0 : forall z, 0 < noise0 z) (noise_gt0 : forall q z, 0 < noise q z).
Hypotheses (pnoise0_gt0 : forall z, 0 < pnoise0 z) (pnoise_gt0 : forall q z, 0 < pnoise q z).
Hypotheses (mr : mixing_resampler rs).

Local Notation target := (path_target (fun x => prior0 x + r0 x) (fun x y q => prior x y q + rt x y q)).
Local Notation akern := (fun mv key x0 xs b0 bs => drop_weights (atp_kernel noise0 ld0 noise ld scale0 scale pnoise0 pld0 pnoise pld mean0 mean prior0 prior r0 rt g0 gt rs mv key x0 xs b0 bs qs backward)).
Local Notation tkern := (fun mv key x0 xs b0 bs => drop_weights (tp_kernel noise0 noise scale0 scale pnoise0 pnoise mean0 mean prior0 prior r0 rt g0 gt logH0 logH rs mv key x0 xs b0 bs qs backward)).
Local Notation U := [finType of X * (size qs).-tuple X].
Local Notation amd := (atp_model n' ld0 ld scale0 scale pnoise0 pld0 pnoise pld mean0 mean prior0 prior r0 rt g0 gt).
Local Notation tmd := (tp_model scale0 scale pnoise0 pnoise mean0 mean prior0 prior r0 rt g0 gt logH0 logH).
Local Notation wt := (@aux_weight X Q noise0 noise scale0 scale g0 gt qs).
Let mu0 (u : X) (y : X) : R := pnoise0 (y - mean0 u).
Let mut (x : X) (p : X * Q) (y : X) : R := pnoise p.2 (y - mean p.2 x p.1).

Lemma amd_rotating u0 : rotating_model (amd u0) (mu0 u0) mut.
Proof.
split=> [key|x a i|key xm p|xm xt p a i|] //=.
- exact: M0_indep.
- by rewrite /atp_M0_logpdf ffunE addrK.
- exact: Mt_indep.
- by rewrite /atp_Mt_logpdf !ffunE addrK.
- by split=> *; [exact: pnoise0_gt0|exact: pnoise_gt0].
Qed.

Hypothesis logH0M : forall (x : pop) (a b : 'I_n) phi, logH0 (moved a x) phi (b + a) = logH0 x phi b.
Hypothesis logHM : forall q (xm x : pop) (a b : 'I_n) phi, logH q (moved a xm) (moved a x) phi (b + a) = logH q xm x phi b.

Lemma tmd_rotating u0 : rotating_model (tmd u0) (mu0 u0) mut.
Proof.
split=> [key|x a i|key xm p|xm xt p a i|] //=.
- exact: M0_indep.
- by rewrite /tp_M0_logpdf ffunE addrK logH0M.
- exact: Mt_indep.
- by rewrite /tp_Mt_logpdf !ffunE addrK logHM.
- by split=> *; [exact: pnoise0_gt0|exact: pnoise_gt0].
Qed.

Lemma atp_mixE mv key x0 xs b0 bs f : size xs = size qs -> size bs = size qs ->
  E (akern mv key x0 xs b0 bs) f
  = \sum_(u : U) wt x0 xs u * E (drop_weights (kernel rs mv (amd u.1) (split key 0) x0 xs b0 bs (zip u.2 qs) (zip u.2 qs) backward true)) f.
Proof.
move=> sx sb; rewrite /drop_weights E_bind /atp_kernel.
etransitivity; last by apply: eq_bigr => u _; rewrite E_bind.
rewrite -(E_aux noise0 noise scale0 scale g0 gt (split key 2) x0
  (fun u0 us => kernel rs mv (amd u0) (split key 0) x0 xs b0 bs (zip us qs) (zip us qs) backward true)) //.
by congr (E _ _); congr bind; apply: functional_extensionality => -[e0 es] /=; rewrite tp_aux_grad.
Qed.

Lemma tp_mixE mv key x0 xs b0 bs f : size xs = size qs -> size bs = size qs ->
  E (tkern mv key x0 xs b0 bs) f
  = \sum_(u : U) wt x0 xs u * E (drop_weights (kernel rs mv (tmd u.1) (split key 0) x0 xs b0 bs (zip u.2 qs) qs backward true)) f.
Proof.
move=> sx sb; rewrite /drop_weights E_bind /tp_kernel.
etransitivity; last by apply: eq_bigr => u _; rewrite E_bind.
rewrite -(E_aux noise0 noise scale0 scale g0 gt (split key 1) x0
  (fun u0 us => kernel rs mv (tmd u0) (split key 0) x0 xs b0 bs (zip us qs) qs backward true)) //.
by congr (E _ _); congr bind; apply: functional_extensionality => -[e0 es] /=; rewrite tp_aux_grad.
Qed.

Lemma zip_qs (u : U) : size (zip u.2 qs) = size qs.
Proof. by rewrite size_zip size_tuple minnn. Qed.

Lemma X_gt0 : (0 < #|X|)%N.
Proof. by apply/card_gt0P; exists 0. Qed.

Lemma atp_joint mv key key' x0 xs b0 bs b0' bs' (f : seq X -> seq bool -> R) : mixing_mover mv ->
  size xs = size qs -> size bs = size qs -> size bs' = size qs ->
  E (akern mv key x0 xs b0 bs) (fun r => f r.1 (rchanges (b0 :: bs) r.2))
  = E (akern mv key' x0 xs b0' bs') (fun r => f r.1 (rchanges (b0' :: bs') r.2)).
Proof.
move=> mm; apply: (@mix_joint X n' (size qs) _ _ U wt (fun u => amd u.1) (fun u => mu0 u.1) (fun u => mut)
   (fun u => zip u.2 qs) (fun u => zip u.2 qs) rs mv backward (akern mv) _ _ _ _ _ _ key key' x0 xs b0 bs b0' bs' f) => //; try exact: zip_qs.
- by move=> u; exact: amd_rotating.
- by move=> *; exact: atp_mixE.
Qed.

Lemma atp_indices mv key key' x0 xs b0 bs b0' bs' (f : seq X -> R) : mixing_mover mv ->
  size xs = size qs -> size bs = size qs -> size bs' = size qs ->
  E (akern mv key x0 xs b0 bs) (fun r => f r.1) = E (akern mv key' x0 xs b0' bs') (fun r => f r.1).
Proof. by move=> mm sx sb sb'; exact: (atp_joint key key' x0 b0 b0' (fun us _ => f us)). Qed.

Lemma tp_joint mv key key' x0 xs b0 bs b0' bs' (f : seq X -> seq bool -> R) : mixing_mover mv ->
  size xs = size qs -> size bs = size qs -> size bs' = size qs ->
  E (tkern mv key x0 xs b0 bs) (fun r => f r.1 (rchanges (b0 :: bs) r.2))
  = E (tkern mv key' x0 xs b0' bs') (fun r => f r.1 (rchanges (b0' :: bs') r.2)).
Proof.
move=> mm; apply: (@mix_joint X n' (size qs) _ _ U wt (fun u => tmd u.1) (fun u => mu0 u.1) (fun u => mut)
   (fun u => zip u.2 qs) (fun u => qs) rs mv backward (tkern mv) _ _ _ _ _ _ key key' x0 xs b0 bs b0' bs' f) => //; try exact: zip_qs.
- by move=> u; exact: tmd_rotating.
- by move=> *; exact: tp_mixE.
Qed.

Lemma tp_indices mv key key' x0 xs b0 bs b0' bs' (f : seq X -> R) : mixing_mover mv ->
  size xs = size qs -> size bs = size qs -> size bs' = size qs ->
  E (tkern mv key x0 xs b0 bs) (fun r => f r.1) = E (tkern mv key' x0 xs b0' bs') (fun r => f r.1).
Proof. by move=> mm sx sb sb'; exact: (tp_joint key key' x0 b0 b0' (fun us _ => f us)). Qed.

Hypothesis n0 : (0 < n')%N.

Lemma atp_sizes mv key x0 xs b0 bs : size xs = size qs -> size bs = size qs ->
  always (fun r => size r.1 = (size qs).+1 /\ size r.2 = (size qs).+1) (akern mv key x0 xs b0 bs).
Proof.
move=> sx sb; case: mr => _ _ _ kp.
have [h1 _] := two_shape noise0 ld0 noise ld scale0 scale pnoise0 pld0 pnoise pld mean0 mean prior0 prior r0 rt g0 gt
  (fun _ _ _ => 0) (fun _ _ _ _ _ => 0) mv key x0 b0 backward kp sb sx.
exact: shape_lengths h1.
Qed.

Lemma tp_sizes mv key x0 xs b0 bs : size xs = size qs -> size bs = size qs ->
  always (fun r => size r.1 = (size qs).+1 /\ size r.2 = (size qs).+1) (tkern mv key x0 xs b0 bs).
Proof.
move=> sx sb; case: mr => _ _ _ kp.
have [_ h2] := two_shape noise0 (fun=> 0) noise (fun _ _ => 0) scale0 scale pnoise0 (fun=> 0) pnoise (fun _ _ => 0) mean0 mean prior0 prior r0 rt g0 gt
  logH0 logH mv key x0 b0 backward kp sb sx.
exact: shape_lengths h2.
Qed.

Lemma atp_forgets mv : mixing_mover mv -> forgets_start (size qs) (akern mv).
Proof.
move=> mm; apply: (@mix_forgets X n' (size qs) _ _ U wt (fun u => amd u.1) (fun u => mu0 u.1) (fun u => mut)
   (fun u => zip u.2 qs) (fun u => zip u.2 qs) rs mv backward (akern mv)) => //; try exact: zip_qs.
- by move=> x0 xs u; exact: aux_weight_gt0.
- by move=> x0 xs sx; exact: aux_weight1.
- by move=> u; exact: amd_rotating.
- by move=> *; exact: atp_mixE.
- exact: (0, nseq_tuple _ 0).
- exact: X_gt0.
- exact: atp_sizes.
Qed.

Lemma tp_forgets mv : mixing_mover mv -> forgets_start (size qs) (tkern mv).
Proof.
move=> mm; apply: (@mix_forgets X n' (size qs) _ _ U wt (fun u => tmd u.1) (fun u => mu0 u.1) (fun u => mut)
   (fun u => zip u.2 qs) (fun u => qs) rs mv backward (tkern mv)) => //; try exact: zip_qs.
- by move=> x0 xs u; exact: aux_weight_gt0.
- by move=> x0 xs sx; exact: aux_weight1.
- by move=> u; exact: tmd_rotating.
- by move=> *; exact: tp_mixE.
- exact: (0, nseq_tuple _ 0).
- exact: X_gt0.
- exact: tp_sizes.
Qed.

Lemma atp_settles_near mv bias d : mixing_mover mv -> 0 <= d -> (forall c, bias c = d * c) ->
  (forall key c, nearly_invariant (size qs) (target qs) (akern mv key) c (d * c)) ->
  settles (size qs) (target qs) (akern mv) bias.
Proof.
move=> mm d0 eb near; apply: (@mix_settles X n' (size qs) _ _ U wt (fun u => amd u.1) (fun u => mu0 u.1) (fun u => mut)
   (fun u => zip u.2 qs) (fun u => zip u.2 qs) rs mv backward (akern mv) _ _ _ _ _ _ _ _ (target qs) (0, nseq_tuple _ 0) bias d) => //; try exact: zip_qs.
- by move=> x0 xs u; exact: aux_weight_gt0.
- by move=> x0 xs sx; exact: aux_weight1.
- by move=> u; exact: amd_rotating.
- by move=> *; exact: atp_mixE.
- exact: X_gt0.
- by move=> x xs; apply/RltE; exact: exp_pos.
- exact: atp_sizes.
Qed.

Lemma tp_settles_near mv bias d : mixing_mover mv -> 0 <= d -> (forall c, bias c = d * c) ->
  (forall key c, nearly_invariant (size qs) (target qs) (tkern mv key) c (d * c)) ->
  settles (size qs) (target qs) (tkern mv) bias.
Proof.
move=> mm d0 eb near; apply: (@mix_settles X n' (size qs) _ _ U wt (fun u => tmd u.1) (fun u => mu0 u.1) (fun u => mut)
   (fun u => zip u.2 qs) (fun u => qs) rs mv backward (tkern mv) _ _ _ _ _ _ _ _ (target qs) (0, nseq_tuple _ 0) bias d) => //; try exact: zip_qs.
- by move=> x0 xs u; exact: aux_weight_gt0.
- by move=> x0 xs sx; exact: aux_weight1.
- by move=> u; exact: tmd_rotating.
- by move=> *; exact: tp_mixE.
- exact: X_gt0.
- by move=> x xs; apply/RltE; exact: exp_pos.
- exact: tp_sizes.
Qed.

Section Tp.
Hypotheses (c0 : tp_correction0 noise0 pnoise0 mean0 logH0) (ct : tp_correction noise pnoise mean logH).

Lemma tp_settles mv : mixing_mover mv -> good_mover mv -> settles (size qs) (target qs) (tkern mv) (fun=> 0).
Proof.
move=> mm gm; apply: (tp_settles_near (d := 0)) => // [c|key c]; first by rewrite mul0r.
by apply: exact_near; apply: tp_inv => //; case: mr.
Qed.

Lemma tp_settles_force : settles (size qs) (target qs) (tkern (@force_move _)) (force_eps n).
Proof.
have [_ _ _ mm] := mixing_contracts n'.
apply: (tp_settles_near mm (force_d_ge0 n) (force_dE n)) => key c.
by rewrite -force_dE; apply: tp_near => //; case: mr.
Qed.
End Tp.

Section Atp.
Hypotheses (h1 : proportional ld0 noise0) (h2 : forall q, proportional (ld q) (noise q)).
Hypotheses (h3 : proportional pld0 pnoise0) (h4 : forall q, proportional (pld q) (pnoise q)).

Lemma atp_settles mv : mixing_mover mv -> good_mover mv -> settles (size qs) (target qs) (akern mv) (fun=> 0).
Proof.
move=> mm gm; apply: (atp_settles_near (d := 0)) => // [c|key c]; first by rewrite mul0r.
by apply: exact_near; apply: atp_inv => //; case: mr.
Qed.

Lemma atp_settles_force : settles (size qs) (target qs) (akern (@force_move _)) (force_eps n).
Proof.
have [_ _ _ mm] := mixing_contracts n'.
apply: (atp_settles_near mm (force_d_ge0 n) (force_dE n)) => key c.
by rewrite -force_dE; apply: atp_near => //; case: mr.
Qed.
End Atp.
End Tp.

(** ** t_atp_csmc_f *)
Section Twisted.
Variables (X : finZmodType) (n' : nat) (Q W : Type).
Local Notation n := n'.+1.
Variables (noise0 ld0 : X -> R) (noise ld : Q -> X -> R).
Variables (scale0 : X -> X) (scale : Q -> X -> X).
Variable tparams : X -> seq X -> W * seq W.
Variables (law0 lpdf0 : W -> X -> R) (law lpdf : W -> X -> X -> R).
Variables (prior0 : X -> R) (prior : X -> X -> Q -> R).
Variables (r0 : X -> R) (rt : X -> X -> Q -> R) (g0 : X -> X) (gt : X -> X -> Q -> X).
Variables (rs : resampler n) (qs : seq Q) (backward : bool).
Hypotheses (noise0P : prob_vec noise0) (noiseP : forall q, prob_vec (noise q)).
Hypotheses (law0P : forall w, prob_vec (law0 w)) (lawP : forall w x, prob_vec (law w x)).
Hypotheses (noise0_gt0 : forall z, 0 < noise0 z) (noise_gt0 : forall q z, 0 < noise q z).
Hypotheses (law0_gt0 : forall w z, 0 < law0 w z) (law_gt0 : forall w x z, 0 < law w x z).
Hypotheses (mr : mixing_resampler rs).
Hypothesis tsz : forall u0 us, size us = size qs -> size (tparams u0 us).2 = size qs.

Local Notation target := (path_target (fun x => prior0 x + r0 x) (fun x y q => prior x y q + rt x y q)).
Local Notation wkern := (fun mv key x0 xs b0 bs => drop_weights (tw_kernel noise0 ld0 noise ld scale0 scale tparams law0 lpdf0 law lpdf r0 rt g0 gt rs mv key x0 xs b0 bs qs backward)).
Local Notation md := (tw_model n' ld0 ld scale0 scale law0 lpdf0 law lpdf r0 rt g0 gt).
Local Notation U := [finType of X * (size qs).-tuple X].
Local Notation wt := (@aux_weight X Q noise0 noise scale0 scale g0 gt qs).
Local Notation pr u := (tparams u.1 (u.2 : _.-tuple _)).

Lemma wmd_rotating w0 u0 : rotating_model (md w0 u0) (law0 w0) (fun x w => law w x).
Proof.
split=> [key|x a i|key xm p|xm xt p a i|] //=.
- exact: tw_M0_indep.
- by rewrite /tw_M0_logpdf ffunE addrK.
- exact: tw_Mt_indep.
- by rewrite /tw_Mt_logpdf !ffunE addrK.
Qed.

Lemma tw_mixE mv key x0 xs b0 bs f : size xs = size qs -> size bs = size qs ->
  E (wkern mv key x0 xs b0 bs) f
  = \sum_(u : U) wt x0 xs u * E (drop_weights (kernel rs mv (md (pr u).1 u.1) (split key 0) x0 xs b0 bs
       (pr u).2 (zip (zip u.2 qs) (pr u).2) backward true)) f.
Proof.
move=> sx sb; rewrite /drop_weights E_bind /tw_kernel.
etransitivity; last by apply: eq_bigr => u _; rewrite E_bind.
rewrite -(E_aux noise0 noise scale0 scale g0 gt (split key 2) x0
  (fun u0 us => kernel rs mv (md (tparams u0 us).1 u0) (split key 0) x0 xs b0 bs (tparams u0 us).2
       (zip (zip us qs) (tparams u0 us).2) backward true)) //.
congr (E _ _); congr bind; apply: functional_extensionality => -[e0 es]; rewrite tw_aux_grad.
by case: (tparams _ _).
Qed.

Lemma tw_sizes mv key x0 xs b0 bs : size xs = size qs -> size bs = size qs ->
  always (fun r => size r.1 = (size qs).+1 /\ size r.2 = (size qs).+1) (wkern mv key x0 xs b0 bs).
Proof.
move=> sx sb; apply: (@shape_lengths _ _ _ x0 xs b0 bs) => //; case: mr => _ _ _ kp.
apply: (@normals_shape X) => e0 es; rewrite size_map => se.
have su : size (tw_aux scale gt x0 xs qs es) = size qs by exact: tw_aux_size.
have := tsz (x0 + scale0 (g0 x0) + e0) su.
case e : (tparams (x0 + scale0 (g0 x0) + e0) (tw_aux scale gt x0 xs qs es)) => [w0 ws] /= sw.
by rewrite e; apply: kernel_shape; rewrite // !size_zip su sw !minnn.
Qed.

Lemma pr_size (u : U) : size (pr u).2 = size qs.
Proof. by apply: tsz; rewrite size_tuple. Qed.
Lemma zip_size (u : U) : size (zip (zip u.2 qs) (pr u).2) = size qs.
Proof. by rewrite !size_zip size_tuple pr_size !minnn. Qed.

Lemma tw_joint mv key key' x0 xs b0 bs b0' bs' (f : seq X -> seq bool -> R) : mixing_mover mv ->
  size xs = size qs -> size bs = size qs -> size bs' = size qs ->
  E (wkern mv key x0 xs b0 bs) (fun r => f r.1 (rchanges (b0 :: bs) r.2))
  = E (wkern mv key' x0 xs b0' bs') (fun r => f r.1 (rchanges (b0' :: bs') r.2)).
Proof.
move=> mm; apply: (@mix_joint X n' (size qs) _ _ U wt (fun u => md (pr u).1 u.1) (fun u => law0 (pr u).1) (fun u x w => law w x)
   (fun u => (pr u).2) (fun u => zip (zip u.2 qs) (pr u).2) rs mv backward (wkern mv) _ _ _ _ _ _ key key' x0 xs b0 bs b0' bs' f) => //.
- exact: pr_size.
- exact: zip_size.
- by move=> u; exact: wmd_rotating.
- by move=> *; exact: tw_mixE.
Qed.

Lemma tw_indices mv key key' x0 xs b0 bs b0' bs' (f : seq X -> R) : mixing_mover mv ->
  size xs = size qs -> size bs = size qs -> size bs' = size qs ->
  E (wkern mv key x0 xs b0 bs) (fun r => f r.1) = E (wkern mv key' x0 xs b0' bs') (fun r => f r.1).
Proof. by move=> mm sx sb sb'; exact: (tw_joint key key' x0 b0 b0' (fun us _ => f us)). Qed.

Hypothesis n0 : (0 < n')%N.

Lemma tw_forgets mv : mixing_mover mv -> forgets_start (size qs) (wkern mv).
Proof.
move=> mm; apply: (@mix_forgets X n' (size qs) _ _ U wt (fun u => md (pr u).1 u.1) (fun u => law0 (pr u).1) (fun u x w => law w x)
   (fun u => (pr u).2) (fun u => zip (zip u.2 qs) (pr u).2) rs mv backward (wkern mv)) => //.
- exact: pr_size.
- exact: zip_size.
- by move=> x0 xs u; exact: aux_weight_gt0.
- by move=> x0 xs sx; exact: aux_weight1.
- by move=> u; exact: wmd_rotating.
- by move=> *; exact: tw_mixE.
- exact: (0, nseq_tuple _ 0).
- exact: X_gt0.
- exact: tw_sizes.
Qed.

Lemma tw_settles_near mv bias d : mixing_mover mv -> 0 <= d -> (forall c, bias c = d * c) ->
  (forall key c, nearly_invariant (size qs) (target qs) (wkern mv key) c (d * c)) ->
  settles (size qs) (target qs) (wkern mv) bias.
Proof.
move=> mm d0 eb near; apply: (@mix_settles X n' (size qs) _ _ U wt (fun u => md (pr u).1 u.1) (fun u => law0 (pr u).1) (fun u x w => law w x)
   (fun u => (pr u).2) (fun u => zip (zip u.2 qs) (pr u).2) rs mv backward (wkern mv) _ _ _ _ _ _ _ _ (target qs) (0, nseq_tuple _ 0) bias d) => //.
- exact: pr_size.
- exact: zip_size.
- by move=> x0 xs u; exact: aux_weight_gt0.
- by move=> x0 xs sx; exact: aux_weight1.
- by move=> u; exact: wmd_rotating.
- by move=> *; exact: tw_mixE.
- exact: X_gt0.
- by move=> x xs; apply/RltE; exact: exp_pos.
- exact: tw_sizes.
Qed.

Hypotheses (h6 : exists c, c != 0 /\ forall z, exp (ld0 z) = c * noise0 z)
  (h7 : forall q, exists c, c != 0 /\ forall z, exp (ld q z) = c * noise q z)
  (h8 : forall w, exists c, c != 0 /\ forall z, exp (lpdf0 w z) = c * law0 w z)
  (h9 : forall w, exists c, c != 0 /\ forall x z, exp (lpdf w x z) = c * law w x z).
Hypothesis fac : tw_factor ld0 ld tparams lpdf0 lpdf prior0 prior qs.

Lemma tw_settles mv : mixing_mover mv -> good_mover mv -> settles (size qs) (target qs) (wkern mv) (fun=> 0).
Proof.
move=> mm gm; apply: (tw_settles_near (d := 0)) => // [c|key c]; first by rewrite mul0r.
by apply: exact_near; apply: tw_inv => //; case: mr.
Qed.

Lemma tw_settles_force : settles (size qs) (target qs) (wkern (@force_move _)) (force_eps n).
Proof.
have [_ _ _ mm] := mixing_contracts n'.
apply: (tw_settles_near mm (force_d_ge0 n) (force_dE n)) => key c.
by rewrite -force_dE; apply: tw_near => //; case: mr.
Qed.
End Twisted.

(** ** Limits are unique *)
Lemma small_terms (a b e e' : R) : 0 < e <= 1 -> 0 < e' <= 1 -> 0 <= b ->
  (forall t, a <= b * (1 - e) ^+ t + b * (1 - e') ^+ t) -> a <= 0.
Proof.
move=> /andP [e0 e1] /andP [f0 f1] b0 H; rewrite leNgt; apply/negP => a0.
have [t1 h1] := above (b * 2%:R / a / e); have [t2 h2] := above (b * 2%:R / a / e').
pose t := maxn t1 t2.
have low (d : R) (s : nat) : 0 < d -> d <= 1 -> b * 2%:R / a / d < s%:R -> (s <= t)%N -> b * (1 - d) ^+ t < a / 2%:R.
  move=> d0 d1 hs st; have g := geometric_le t (ltW d0) d1.
  have tt : b * 2%:R / a < t%:R * d.
    by rewrite -ltr_pdivr_mulr //; apply: lt_le_trans hs _; rewrite ler_nat.
  have p0 : 0 <= (1 - d) ^+ t by rewrite exprn_ge0 // subr_ge0.
  have q1 : b * 2%:R < a * (1 + t%:R * d).
    by rewrite [ltRHS]mulrC -ltr_pdivr_mulr //; apply: lt_le_trans tt _; rewrite ler_addr ler01.
  have [b00|bp] : b = 0 \/ 0 < b by case: (ltrgt0P b) b0; auto.
    by rewrite b00 mul0r divr_gt0 ?ltr0n.
  rewrite ltr_pdivl_mulr ?ltr0n //.
  have q2 : 0 < 1 + t%:R * d by apply: ltr_paddr; rewrite ?ltr01 // mulr_ge0 ?ler0n // ltW.
  rewrite -(ltr_pmul2r q2); apply: le_lt_trans q1.
  rewrite (_ : b * (1 - d) ^+ t * 2%:R * (1 + t%:R * d) = b * 2%:R * ((1 - d) ^+ t * (1 + t%:R * d))); last first.
    by rewrite [b * _ * 2%:R]mulrAC -!mulrA.
  by rewrite -[leRHS]mulr1; apply: ler_wpmul2l => //; apply: mulr_ge0; rewrite ?ler0n.
have := H t; apply/negP; rewrite -ltNge.
have l1 := low e t1 e0 e1 h1 (leq_maxl _ _); have l2 := low e' t2 f0 f1 h2 (leq_maxr _ _).
apply: lt_le_trans (ltr_add l1 l2) _; rewrite le_eqVlt; apply/orP; left; apply/eqP; by toR; field.
Qed.

Lemma settles_unique (X : finType) (I : Type) (x : X) (i : I) m target target' (kern kern' : key -> X -> seq X -> I -> seq I -> prog (seq X * seq I)) f c :
  (forall key x0 xs b0 bs, kern key x0 xs b0 bs = kern' key x0 xs b0 bs) ->
  settles m target kern (fun=> 0) -> settles m target' kern' (fun=> 0) -> (forall xs, `|f xs| <= c) ->
  path_mean m target f = path_mean m target' f.
Proof.
move=> ek [_ [_ [e e01 [cv _]]]] [_ [_ [e' e01' [cv' _]]]] fc.
have c0 : 0 <= c by apply: le_trans (fc [::]).
have eK : on_pairs kern = on_pairs kern'.
  apply: functional_extensionality => k; apply: functional_extensionality => -[[|y ys] [|b bs]] //=.
apply/eqP; rewrite -subr_eq0 -normr_eq0 eq_le normr_ge0 andbT.
apply: (small_terms e01 e01' (b := 2%:R * c)) => [|t]; first by apply: mulr_ge0; rewrite ?ler0n.
have := cv (nseq t [::]) x (nseq m x) i (nseq m i) f c; have := cv' (nseq t [::]) x (nseq m x) i (nseq m i) f c.
rewrite !size_nseq -eK !mul0r !addr0 => /(_ erefl erefl fc) h1 /(_ erefl erefl fc).
rewrite distrC => h2; have -> : path_mean m target f - path_mean m target' f
  = (path_mean m target f - E (after (on_pairs kern) (nseq t [::]) (x :: nseq m x, i :: nseq m i)) (fun s => f s.1))
    + (E (after (on_pairs kern) (nseq t [::]) (x :: nseq m x, i :: nseq m i)) (fun s => f s.1) - path_mean m target' f) by rewrite addrA subrK.
by apply: le_trans (ler_norm_add _ _) _; exact: ler_add.
Qed.

(** ** Examples *)
Section Example.
Variables (X : finZmodType) (n' : nat) (Q : Type) (ld pld : Q -> X -> R) (mean : Q -> X -> X -> X).

Lemma ex_tp_logH_moved q (xm x : {ffun 'I_n'.+1 -> X}) (a b : 'I_n'.+1) phi :
  ex_tp_logH ld pld mean q (moved a xm) (moved a x) phi (b + a) = ex_tp_logH ld pld mean q xm x phi b.
Proof.
rewrite /ex_tp_logH; congr ln; apply: eq_bigr => u _; rewrite ffunE addrK; congr (_ * _).
rewrite (reindex_inj (addIr a)) /=; apply: eq_big => [i|i _]; first by rewrite (inj_eq (addIr a)).
by rewrite !ffunE addrK.
Qed.
End Example.

(** ** A log-density that is not that of the proposals *)
Definition bad_pl (x : 'I_2) : R := if x == ord0 then ln 2%:R else 0.

Lemma zip_none A B (l : seq A) : zip l ([::] : seq B) = [::].
Proof. by case: l. Qed.

Lemma kernel_weights (X : finType) (n' : nat) (P Q P' Q' : Type) (md : model X n' P Q) (md' : model X n' P' Q') rs mv key x0 xs b0 bs :
  M0_rvs md = M0_rvs md' -> (forall x, log_w0 md x = log_w0 md' x) ->
  kernel rs mv md key x0 xs b0 bs [::] [::] false true = kernel rs mv md' key x0 xs b0 bs [::] [::] false true.
Proof.
move=> e /functional_extensionality ew.
by rewrite /kernel /forward_pass e ew.
Qed.

Lemma wrong_density :
  ~ forall (X : finZmodType) (n' : nat) (Q : Type) (noise0 : X -> R) (noise : Q -> X -> R) (scale0 : X -> X) (scale : Q -> X -> X)
    (pnoise0 : X -> R) (pnoise : Q -> X -> R) (mean0 : X -> X) (mean : Q -> X -> X -> X)
    (prior0 : X -> R) (prior : X -> X -> Q -> R) (r0 : X -> R) (rt : X -> X -> Q -> R)
    (g0 : X -> X) (gt : X -> X -> Q -> X) (ld0 pld0 : X -> R) (ld pld : Q -> X -> R)
    (rs : resampler n'.+1) (mv : mover n'.+1) qs (backward : bool),
  prob_vec noise0 -> (forall q, prob_vec (noise q)) -> prob_vec pnoise0 -> (forall q, prob_vec (pnoise q)) ->
  (forall z, 0 < noise0 z) -> (forall q z, 0 < noise q z) -> (forall z, 0 < pnoise0 z) -> (forall q z, 0 < pnoise q z) ->
  mixing_resampler rs -> (0 < n')%N ->
  (exists c, c != 0 /\ forall z, exp (ld0 z) = c * noise0 z) ->
  (forall q, exists c, c != 0 /\ forall z, exp (ld q z) = c * noise q z) ->
  mixing_mover mv -> good_mover mv ->
  settles (size qs) (path_target (fun x => prior0 x + r0 x) (fun x y q => prior x y q + rt x y q) qs)
    (fun key x0 xs b0 bs => drop_weights
       (atp_kernel noise0 ld0 noise ld scale0 scale pnoise0 pld0 pnoise pld mean0 mean prior0 prior r0 rt g0 gt rs mv key x0 xs b0 bs qs backward))
    (fun=> 0).
Proof.
move=> H.
have [mr1 _ mm _] := mixing_contracts 1; have [_ _ gm] := contracts 1.
pose zq := fun (_ : unit) (_ : 'I_2) => (0 : R).
pose nz := ex_noise zq tt; pose pn := ex_noise (fun _ : unit => bad_pl) tt.
pose K (pl pr : 'I_2 -> R) := fun key x0 xs b0 bs => drop_weights (@atp_kernel _ 1 unit nz (fun=> 0) (fun=> nz) (fun _ _ => 0) id (fun=> id)
   pn pl (fun=> pn) (fun=> bad_pl) (fun=> 0) (fun _ _ _ => 0) pr (fun _ _ _ => 0) (fun=> 0) (fun _ _ _ => 0) id (fun x _ _ => x)
   (@multinomial 2) (@barker_move 2) key x0 xs b0 bs [::] false).
have nP : prob_vec nz := ex_noise_prob zq tt.
have pP : prob_vec pn := ex_noise_prob (fun _ : unit => bad_pl) tt.
have n0 z : 0 < nz z := ex_noise_gt0 zq tt z.
have p0 z : 0 < pn z := ex_noise_gt0 (fun _ : unit => bad_pl) tt z.
have s1 : settles 0 (path_target (fun x => 0 + 0) (fun x y q => 0 + 0) ([::] : seq unit)) (K (fun=> 0) (fun=> 0)) (fun=> 0).
  apply: (H _ 1%N unit nz (fun=> nz) id (fun=> id) pn (fun=> pn) (fun=> 0) (fun _ _ _ => 0) (fun=> 0) (fun _ _ _ => 0) (fun=> 0)
     (fun _ _ _ => 0) id (fun x _ _ => x) (fun=> 0) (fun=> 0) (fun _ _ => 0) (fun=> bad_pl) (@multinomial 2) (@barker_move 2) [::] false) => //.
  - exact: (ex_noise_ld zq tt).
  - by move=> q; exact: (ex_noise_ld zq tt).
have s2 : settles 0 (path_target (fun x => bad_pl x + 0) (fun x y q => 0 + 0) ([::] : seq unit)) (K bad_pl bad_pl) (fun=> 0).
  apply: (@atp_settles _ 1 unit nz (fun=> 0) (fun=> nz) (fun _ _ => 0) id (fun=> id) pn bad_pl (fun=> pn) (fun=> bad_pl) (fun=> 0)
     (fun _ _ _ => 0) bad_pl (fun _ _ _ => 0) (fun=> 0) (fun _ _ _ => 0) id (fun x _ _ => x) (@multinomial 2) [::] false) => //.
  - exact: (ex_noise_ld zq tt).
  - by move=> q; exact: (ex_noise_ld zq tt).
  - exact: (ex_noise_ld (fun _ : unit => bad_pl) tt).
  - by move=> q; exact: (ex_noise_ld (fun _ : unit => bad_pl) tt).
pose f (xs : seq 'I_2) : R := if xs is [:: x] then (x == ord0)%:R else 0.
have fc xs : `|f xs| <= 1 by rewrite /f; case: xs => [|x [|]]; rewrite ?normr0 ?ler01 //; case: (x == ord0); rewrite ?normr0 ?normr1 ?ler01.
have eK key x0 xs b0 bs : K (fun=> 0) (fun=> 0) key x0 xs b0 bs = K bad_pl bad_pl key x0 xs b0 bs.
  rewrite /K; congr drop_weights; rewrite /atp_kernel; congr bind; apply: functional_extensionality => -[e0 es].
  cbv beta zeta; rewrite !zip_none; apply: kernel_weights => // x; rewrite /log_w0; congr normalize_log; apply: functional_extensionality => i.
  rewrite /= /atp_Gamma_0 /atp_M0_logpdf !subr0 !addr0 /=.
  by toR; lra.
have := settles_unique ord0 ord0 eK s1 s2 fc.
have one (F : seq 'I_2 -> R) : \sum_(xs : 0.-tuple 'I_2) F xs = F [::].
  by rewrite (big_pred1 [tuple]) // => i; apply/esym/eqP; exact: tuple0.
have two (F : 'I_2 -> seq 'I_2 -> R) : path_sum 0 F = F ord0 [::] + F ord_max [::].
  rewrite /path_sum big_ord_recl big_ord_recl big_ord0 addr0 (one (F ord0)) (one (F _)); congr (_ + F _ _); exact: val_inj.
rewrite /path_mean !two /path_target /= /bad_pl !eqxx /= !addr0.
rewrite exp_0 exp_ln; last by apply/RltE; rewrite ltr0n.
rewrite !mulr1 !mulr0 !addr0 => /eqP; rewrite eqr_div; last 2 first.
- by rewrite -[_ + _](natrD _ 1 1) pnatr_eq0.
- by rewrite -[_ + 1](natrD _ 2 1) pnatr_eq0.
by move/eqP; toR; lra.
Qed.

(** ** Final forms *)
Section Final.
Variables (X : finZmodType) (n' : nat) (Q setting : Type) (noise ld : setting -> X -> R).
Variables (scale : setting -> X -> X) (logH : setting -> {ffun 'I_n'.+1 -> X} -> X -> X -> R).
Variables (rs : resampler n'.+1) (mv : mover n'.+1) (G0 : X -> R) (Gt : X -> X -> Q -> R).
Variables (g0 : X -> X) (gt : X -> X -> Q -> X) (s0 : setting) (ss : seq setting) (qs : seq Q) (backward : bool).

Lemma three_forget :
  (forall s, prob_vec (noise s)) -> (forall s z, 0 < noise s z) ->
  (forall s (x : {ffun 'I_n'.+1 -> X}) a phi y, logH s (moved a x) phi y = logH s x phi y) ->
  mixing_resampler rs -> mixing_mover mv -> size ss = size qs -> (0 < n')%N ->
  [/\ forgets_start (size qs) (fun key x0 xs b0 bs =>
        drop_weights (rw_kernel noise rs mv G0 Gt xpredT key x0 xs b0 bs s0 ss qs backward)),
      forgets_start (size qs) (fun key x0 xs b0 bs =>
        drop_weights (l_kernel noise scale logH rs mv G0 Gt g0 gt key x0 xs b0 bs s0 ss qs backward))
    & forgets_start (size qs) (fun key x0 xs b0 bs =>
        drop_weights (al_kernel noise ld scale rs mv G0 Gt g0 gt key x0 xs b0 bs s0 ss qs backward))].
Proof.
move=> nP npos hM [gr rot spr kp] [mrot lea mpr] sz n0; split.
- exact: (@rw_forgets X n' Q setting noise ld scale logH rs mv G0 Gt g0 gt s0 ss qs backward).
- exact: (@l_forgets X n' Q setting noise ld scale logH rs mv G0 Gt g0 gt s0 ss qs backward).
- exact: (@al_forgets X n' Q setting noise ld scale logH rs mv G0 Gt g0 gt s0 ss qs backward).
Qed.
End Final.

Section TwistedFinal.
Variables (X : finZmodType) (n' : nat) (Q W : Type).
Variables (noise0 ld0 : X -> R) (noise ld : Q -> X -> R).
Variables (scale0 : X -> X) (scale : Q -> X -> X).
Variable tparams : X -> seq X -> W * seq W.
Variables (law0 lpdf0 : W -> X -> R) (law lpdf : W -> X -> X -> R).
Variables (r0 : X -> R) (rt : X -> X -> Q -> R) (g0 : X -> X) (gt : X -> X -> Q -> X).
Variables (prior0 : X -> R) (prior : X -> X -> Q -> R).
Variables (rs : resampler n'.+1) (qs : seq Q) (backward : bool).
Hypotheses (noise0P : prob_vec noise0) (noiseP : forall q, prob_vec (noise q)).
Hypotheses (law0P : forall w, prob_vec (law0 w)) (lawP : forall w x, prob_vec (law w x)).
Hypotheses (noise0_gt0 : forall z, 0 < noise0 z) (noise_gt0 : forall q z, 0 < noise q z).
Hypotheses (law0_gt0 : forall w z, 0 < law0 w z) (law_gt0 : forall w x z, 0 < law w x z).
Hypotheses (mr : mixing_resampler rs) (n0 : (0 < n')%N).
Hypotheses (h6 : exists c, c != 0 /\ forall z, exp (ld0 z) = c * noise0 z)
  (h7 : forall q, exists c, c != 0 /\ forall z, exp (ld q z) = c * noise q z)
  (h8 : forall w, exists c, c != 0 /\ forall z, exp (lpdf0 w z) = c * law0 w z)
  (h9 : forall w, exists c, c != 0 /\ forall x z, exp (lpdf w x z) = c * law w x z).
Hypothesis fac : tw_factor ld0 ld tparams lpdf0 lpdf prior0 prior qs.
Local Notation target := (path_target (fun x => prior0 x + r0 x) (fun x y q => prior x y q + rt x y q)).
Local Notation wkern := (fun mv key x0 xs b0 bs => drop_weights (tw_kernel noise0 ld0 noise ld scale0 scale tparams law0 lpdf0 law lpdf r0 rt g0 gt rs mv key x0 xs b0 bs qs backward)).

Lemma factor_sizes u0 us : size us = size qs -> size (tparams u0 us).2 = size qs.
Proof. by move=> su; have := fac u0 su; case: (tparams u0 us) => w0 ws []. Qed.

Lemma tw_converges mv : mixing_mover mv -> good_mover mv -> settles (size qs) (target qs) (wkern mv) (fun=> 0).
Proof. by move=> mm gm; apply: tw_settles => //; exact: factor_sizes. Qed.

Lemma tw_converges_force : settles (size qs) (target qs) (wkern (@force_move _)) (force_eps n'.+1).
Proof. by apply: tw_settles_force => //; exact: factor_sizes. Qed.
End TwistedFinal.
