(** * AuxProofs: invariance of the kernels of rw_csmc.py, l_csmc_f.py, al_csmc_f.py. *)
From Coq Require Import Reals FunctionalExtensionality.
From mathcomp Require Import all_ssreflect all_algebra.
From Verif Require Import RInst Prog ProgTheory Resampling Spec ResamplingProofs.
From Verif Require Import KillingProofs MoveProofs ResamplingSpecs Csmc SmcTheory BackwardProofs.
From Verif Require Import CsmcInvariance AuxCsmc SweepTheory.

Set Implicit Arguments.
Unset Strict Implicit.
Unset Printing Implicit Defensive.
Import GRing.Theory Num.Theory Order.TTheory.
Local Open Scope ring_scope.

Section Shift.
Variable X : finZmodType.

Lemma sum_shift (nu : X -> R) (m : X) (g : X -> R) :
  \sum_e nu e * g (m + e) = \sum_u nu (u - m) * g u.
Proof.
rewrite [RHS](reindex_inj (addrI m)) /=.
by apply: eq_bigr => e _; rewrite addrAC subrr add0r.
Qed.

Lemma sum_iid_shift n' (nu : X -> R) (u : X) (g : pop X n' -> R) :
  \sum_(e : pop X n') iid nu e * g [ffun i => u + e i]
  = \sum_(z : pop X n') (\prod_i nu (z i - u)) * g z.
Proof.
pose h (z : pop X n') : pop X n' := [ffun i => u + z i].
have hi : injective h.
  by move=> a b /ffunP e; apply/ffunP => i; have := e i; rewrite !ffunE => /addrI.
rewrite [RHS](reindex_inj hi) /=; apply: eq_bigr => e _; congr (_ * _).
by apply: eq_bigr => i _; rewrite ffunE addrAC subrr add0r.
Qed.

Lemma iid_prob n' (nu : X -> R) : prob_vec nu -> prob_vec (@iid X n' nu).
Proof. by move=> p; exact: (@prod_prob _ _ (fun _ : 'I_n'.+1 => nu) (fun _ => p)). Qed.

Lemma pair_prob (Y Z : finType) (nu : Y -> R) (mu : Z -> R) : prob_vec nu -> prob_vec mu ->
  prob_vec (fun r : Y * Z => nu r.1 * mu r.2).
Proof.
move=> [n0 n1] [m0 m1]; split=> [r|]; first exact: mulr_ge0.
rewrite sum_pairs -[RHS]n1; apply: eq_bigr => a _ /=.
by rewrite -mulr_sumr m1 mulr1.
Qed.

End Shift.

Section Aux.
Variables (X : finZmodType) (n' : nat) (Q : Type).
Local Notation n := n'.+1.
Local Notation pop := (pop X n').
Local Notation lwts := (lwts n').
Variables (setting : Type) (noise ld : setting -> X -> R) (scale : setting -> X -> X).
Variable logH : setting -> pop -> X -> X -> R.
Variables (rs : resampler n) (mv : mover n).
Variables (G0 : X -> R) (Gt : X -> X -> Q -> R) (g0 : X -> X) (gt : X -> X -> Q -> X).
Hypothesis noiseP : forall s, prob_vec (noise s).
Hypothesis rs_good : good_resampler rs.

(** Error of a kernel [K] (given by its expectations) on functions bounded by [c]. *)
Definition near (m : nat) (target : X -> seq X -> R)
  (K : X -> seq X -> 'I_n -> seq 'I_n -> (seq X * seq 'I_n -> R) -> R) (c eps : R) : Prop :=
  forall f : seq X -> seq 'I_n -> R, (forall xs bs, `|f xs bs| <= c) ->
  `| traj_sum m (fun x0 xs b0 bs => target x0 xs * K x0 xs b0 bs (fun r => f r.1 r.2))
     - traj_sum m (fun x0 xs b0 bs => target x0 xs * f (x0 :: xs) (b0 :: bs)) |
  <= traj_sum m (fun x0 xs (b0 : 'I_n) bs => target x0 xs * eps).

Definition invar (m : nat) (target : X -> seq X -> R)
  (K : X -> seq X -> 'I_n -> seq 'I_n -> (seq X * seq 'I_n -> R) -> R) : Prop :=
  forall f : seq X -> seq 'I_n -> R,
  traj_sum m (fun x0 xs b0 bs => target x0 xs * K x0 xs b0 bs (fun r => f r.1 r.2))
  = traj_sum m (fun x0 xs b0 bs => target x0 xs * f (x0 :: xs) (b0 :: bs)).

(** What a final move is required to satisfy, and what follows for a kernel. *)
Definition good m target K : Prop :=
  (good_mover mv -> invar m target K) /\
  (forall c eps,
    (forall key w (g : 'I_n -> R), prob_vec w -> (forall k, `|g k| <= c) ->
     `|\sum_k w k * E (mv key w k) (fun r => g r.1) - \sum_k w k * g k| <= eps) ->
    near m target K c eps).

Lemma eq_good m target K K' : (forall x0 xs b0 bs f, size xs = m -> size bs = m -> K x0 xs b0 bs f = K' x0 xs b0 bs f) ->
  good m target K' -> good m target K.
Proof.
move=> e [H1 H2].
have ee f : traj_sum m (fun x0 xs b0 bs => target x0 xs * K x0 xs b0 bs f)
          = traj_sum m (fun x0 xs b0 bs => target x0 xs * K' x0 xs b0 bs f).
  apply: eq_bigr => x0 _; apply: eq_bigr => b0 _; apply: eq_bigr => xs _; apply: eq_bigr => bs _.
  by rewrite e ?size_tuple.
split=> [gm f|c eps mvb f fc]; first by rewrite ee; exact: H1.
by rewrite ee; exact: (H2 c eps mvb f fc).
Qed.

Lemma minus_maxE (l : lwts) : exists k, forall i, minus_max l i = l i - k.
Proof. by exists (amax l). Qed.

Lemma normalize_logE (l : lwts) : exists k, forall i, normalize_log l i = l i - k.
Proof. by eexists => i; rewrite /normalize_log. Qed.

(** ** Integrating the auxiliary variable out (rw_csmc, l_csmc_f) *)
Section Marginal.
Variables (dr0 : setting -> X -> X) (dr : setting * Q -> X -> X -> X).
Variables (h0 : setting -> pop -> lwts) (h : setting * Q -> pop -> pop -> lwts).
(** The law of the other particles given the reference, up to a factor common to
    all particles. *)
Hypothesis hE0 : forall s, exists S : pop -> R, forall (x : pop) b,
  \sum_u noise s (u - (x b + dr0 s (x b))) * \prod_(i | i != b) noise s (x i - u)
  = S x * exp (h0 s x b).
Hypothesis hE : forall p (xm : pop), exists S : pop -> R, forall (x : pop) b,
  \sum_u noise p.1 (u - (x b + dr p (xm b) (x b))) * \prod_(i | i != b) noise p.1 (x i - u)
  = S x * exp (h p xm x b).

Definition mlaw (s : setting) (r : X * pop) : R := noise s r.1 * iid (noise s) r.2.

Lemma mlawP s : prob_vec (mlaw s).
Proof. by apply: pair_prob; [|apply: iid_prob]. Qed.

Lemma sum_marginal s (g : X -> R) (d : X -> X) (b : 'I_n) (F : pop -> R) :
  \sum_x exp (g x) * (\sum_r mlaw s r * F (mk_pop (x + d x + r.1) r.2 b x))
  = \sum_(xt : pop) (exp (g (xt b)) *
      \sum_u noise s (u - (xt b + d (xt b))) * \prod_(i | i != b) noise s (xt i - u)) * F xt.
Proof.
transitivity (\sum_u \sum_x (exp (g x) * noise s (u - (x + d x))) *
    \sum_(z : pop) (\prod_i noise s (z i - u)) * F (upd z b x)).
  rewrite exchange_big; apply: eq_bigr => x _ /=.
  rewrite sum_pairs /mlaw /mk_pop /=.
  transitivity (exp (g x) * \sum_e noise s e *
     (\sum_(z : pop) (\prod_i noise s (z i - (x + d x + e))) * F (upd z b x))).
    congr (_ * _); apply: eq_bigr => e _; rewrite -sum_iid_shift mulr_sumr.
    by apply: eq_bigr => z _; rewrite mulrA.
  rewrite (sum_shift _ _ (fun u => \sum_(z : pop) (\prod_i noise s (z i - u)) * F (upd z b x))).
  by rewrite mulr_sumr; apply: eq_bigr => u _; rewrite mulrA.
transitivity (\sum_u \sum_(xt : pop) (exp (g (xt b)) * noise s (u - (xt b + d (xt b)))) *
     (\prod_(i | i != b) noise s (xt i - u)) * F xt).
  apply: eq_bigr => u _.
  rewrite (@sum_upd_all _ _ (fun _ y => noise s (y - u)) b (fun x => exp (g x) * noise s (u - (x + d x)))) //.
  rewrite -(proj2 (noiseP s)) (reindex_inj (addIr u)) /=.
  by apply: eq_bigr => y _; rewrite addrK.
rewrite exchange_big; apply: eq_bigr => xt _ /=; rewrite mulr_sumr mulr_suml.
by apply: eq_bigr => u _; rewrite -!mulrA.
Qed.

Variables (post : lwts -> lwts) (wof : lwts -> 'I_n -> R).
Variables (PP' : Type) (pof : setting * Q -> PP') (Wt : pop -> pop -> PP' -> lwts).
Hypothesis postE : forall l, exists k, forall i, post l i = l i - k.
Hypothesis wofE : forall l, wof (post l) = normalize (post l).
Hypothesis WtE : forall xm xt p i, Wt xm xt (pof p) i = Gt (xm i) (xt i) p.2 + h p xm xt i.

Definition mgen (p : setting * Q) (xm : X) (b : 'I_n) (x : X) (r : X * pop) : pop :=
  mk_pop (x + dr p xm x + r.1) r.2 b x.

Definition mgen0 (s0 : setting) (b : 'I_n) (x : X) (r : X * pop) : pop :=
  mk_pop (x + dr0 s0 x + r.1) r.2 b x.

Theorem marginal_good key s0 pp backward :
  good (size pp) (path_target G0 Gt (map snd pp))
    (fun x0 xs b0 bs => skern rs mv (fun x0 i => G0 (x0 i) + h0 s0 x0 i) Wt post wof Gt pof snd (mlaw s0) (mgen0 s0)
       (fun p => mlaw p.1) mgen key x0 xs b0 bs pp backward).
Proof.
suff [K0 K P0 P0'] : [/\ forall b x y, mgen0 s0 b x y b = x, forall p xm b x y, mgen p xm b x y b = x,
    exists S : pop -> R, forall b F, \sum_x exp (G0 x) * (\sum_y mlaw s0 y * F (mgen0 s0 b x y))
      = \sum_x0 S x0 * exp (G0 (x0 b) + h0 s0 x0 b) * F x0
  & forall p (xm : pop), exists S : pop -> R, forall b F,
    \sum_x exp (Gt (xm b) x p.2) * (\sum_y mlaw p.1 y * F (mgen p (xm b) b x y))
    = \sum_xt S xt * exp (Wt xm xt (pof p) b) * F xt].
  have L s : prob_vec (mlaw s) by exact: mlawP.
  split=> [gm f|c eps mvb f fc]; first by apply: skern_invariant.
  by apply: skern_error mvb fc.
split.
- by move=> b x y; rewrite /mgen0 /mk_pop upd_same.
- by move=> p xm b x y; rewrite /mgen /mk_pop upd_same.
- have [S HS] := hE0 s0; exists S => b F; rewrite sum_marginal; apply: eq_bigr => xt _.
  by rewrite HS expRD mulrCA !mulrA.
- move=> p xm; have [S HS] := hE p xm; exists S => b F.
  rewrite (sum_marginal p.1 (fun x => Gt (xm b) x p.2) (fun x => dr p (xm b) x)).
  by apply: eq_bigr => xt _; rewrite HS WtE expRD mulrCA !mulrA.
Qed.

End Marginal.

(** *** rw_csmc *)
Lemma rw_pops xs es ps bs xm (pp : seq (setting * Q)) :
  size xs = size pp -> size es = size pp -> size ps = size pp -> size bs = size pp ->
  mk_pops (rw_aux xs es) ps bs xs
  = gpops (mgen (fun _ _ _ => 0)) pp xm xs bs (zip es ps).
Proof.
elim: pp xs es ps bs xm => [|p pp IH] [|x xs] [|e es] [|po ps] [|b bs] xm //=.
move=> [s1] [s2] [s3] [s4]; rewrite /mgen addr0 /=; congr (_ :: _); exact: IH.
Qed.

Lemma fst_noise (ss : seq setting) (qs : seq Q) : size ss = size qs ->
  [seq noise s | s <- ss] = [seq noise p.1 | p <- zip ss qs].
Proof. by elim: ss qs => [|s ss IH] [|q qs] //= [sz]; rewrite (IH qs). Qed.

Lemma fst_iid (ss : seq setting) (qs : seq Q) : size ss = size qs ->
  [seq @iid X n' (noise s) | s <- ss] = [seq iid (noise p.1) | p <- zip ss qs].
Proof. by elim: ss qs => [|s ss IH] [|q qs] //= [sz]; rewrite (IH qs). Qed.

(** Expectation of a program that draws the auxiliary variables, then the
    proposals. *)
Lemma E_two_normals (k1 k0 : key) s0 (pp : seq (setting * Q)) A (K : X -> seq X -> pop -> seq pop -> prog A) f
    (F : X * pop -> seq (X * pop) -> R) :
  (forall e0 es p0 ps, size es = size pp -> size ps = size pp ->
     E (K e0 es p0 ps) f = F (e0, p0) (zip es ps)) ->
  E (do (e0, es) <- normals k1 (noise s0) [seq noise p.1 | p <- pp];
     do (p0, ps) <- normals k0 (iid (noise s0)) [seq iid (noise p.1) | p <- pp];
     K e0 es p0 ps) f
  = \sum_r mlaw s0 r * lsum [seq mlaw p.1 | p <- pp] (F r).
Proof.
move=> H; rewrite E_bind E_normals [RHS]sum_pairs; apply: eq_bigr => e0 _.
transitivity (noise s0 e0 * lsum [seq noise p.1 | p <- pp] (fun es =>
   \sum_p0 iid (noise s0) p0 * lsum [seq iid (noise p.1) | p <- pp] (fun ps => F (e0, p0) (zip es ps)))).
  congr (_ * _); apply: eq_lsum_size => es; rewrite size_map => se.
  rewrite E_bind E_normals; apply: eq_bigr => p0 _; congr (_ * _).
  by apply: eq_lsum_size => ps; rewrite size_map => sp; exact: H.
rewrite lsum_sum mulr_sumr; apply: eq_bigr => p0 _; rewrite mulrA; congr (_ * _).
exact: (@lsum_pair _ _ _ (fun p => noise p.1) (fun p => iid (noise p.1))).
Qed.

Lemma wof_exp (l : lwts) : (fun i => exp (normalize_log l i)) = normalize (normalize_log l).
Proof. exact: exp_normalize_log. Qed.

Lemma snd_zip (ss : seq setting) (qs : seq Q) : size ss = size qs -> map snd (zip ss qs) = qs.
Proof. by move=> sz; apply: unzip2_zip; rewrite sz. Qed.

(** The kernel as a sweep over joint draws. *)
Definition rw_sum key s0 x0 xs b0 bs (pp : seq (setting * Q)) backward : (seq X * seq 'I_n -> R) -> R :=
  skern rs mv (fun x0 i => G0 (x0 i) + 0) (fun xm xt q i => Gt (xm i) (xt i) q) (@normalize_log n) (fun lw i => exp (lw i))
    Gt snd snd (mlaw s0) (mgen0 (fun _ _ => 0) s0) (fun p => mlaw p.1) (mgen (fun _ _ _ => 0)) key x0 xs b0 bs pp backward.

Lemma rw_kernelE (finite : X -> bool) key s0 ss qs backward x0 xs b0 bs f :
  (forall x, finite x) -> size ss = size qs -> size xs = size qs -> size bs = size qs ->
  E (drop_weights (rw_kernel noise rs mv G0 Gt finite key x0 xs b0 bs s0 ss qs backward)) f
  = rw_sum key s0 x0 xs b0 bs (zip ss qs) backward f.
Proof.
move=> fin sz sx sb; set pp := zip ss qs.
have spp : size pp = size qs by rewrite size_zip sz minnn.
rewrite /drop_weights E_bind /rw_kernel E_bind /rw_forward (fst_noise sz) (fst_iid sz).
apply: E_two_normals => e0 es p0 ps se sp.
rewrite /aux_sweep [RHS]E_bind [RHS]E_bind (snd_zip sz).
rewrite (@rw_pops _ _ _ _ x0 pp) ?spp ?se ?sp //.
have -> : mk_pop (x0 + e0) p0 b0 x0 = mgen0 (fun _ _ => 0) s0 b0 x0 (e0, p0) by rewrite /mgen0 addr0.
have -> : (fun (x : pop) i => G0 (x i)) = (fun x i => G0 (x i) + 0).
  by apply: functional_extensionality => x; apply: functional_extensionality => i; rewrite addr0.
apply: eq_E => o; rewrite E_bind; apply: eq_E => -[[rx rb] rl] /=.
by rewrite (_ : all finite rx) //; apply/allP => x _; exact: fin.
Qed.

Theorem rw_good (finite : X -> bool) key s0 ss qs backward :
  (forall s z, noise s (- z) = noise s z) -> (forall x, finite x) -> size ss = size qs ->
  good (size qs) (path_target G0 Gt qs)
    (fun x0 xs b0 bs => E (drop_weights (rw_kernel noise rs mv G0 Gt finite key x0 xs b0 bs s0 ss qs backward))).
Proof.
move=> even fin sz; set pp := zip ss qs.
have spp : size pp = size qs by rewrite size_zip sz minnn.
have H0 s (x : pop) b d : d = 0 ->
    \sum_u noise s (u - (x b + d)) * \prod_(i | i != b) noise s (x i - u)
  = (\sum_u \prod_i noise s (x i - u)) * exp 0.
  move=> ->; rewrite exp_0 mulr1; apply: eq_bigr => u _; rewrite addr0 [RHS](bigD1 b) //=; congr (_ * _).
  by rewrite -even opprB.
have := @marginal_good (fun _ _ => 0) (fun _ _ _ => 0) (fun _ _ _ => 0) (fun _ _ _ _ => 0) _ _
  (@normalize_log n) (fun lw i => exp (lw i)) Q snd (fun xm xt q i => Gt (xm i) (xt i) q)
  normalize_logE wof_exp _ key s0 pp backward.
rewrite snd_zip // spp => H; apply: eq_good (H _ _ _); first last.
- by move=> xm xt p i; rewrite addr0.
- by move=> p xm; eexists => x b; apply: H0.
- by move=> s; eexists => x b; apply: H0.
by move=> x0 xs b0 bs f sx sb; exact: rw_kernelE.
Qed.

(** *** l_csmc_f *)
Lemma l_pops xs es ps bs xm (ss : seq setting) qs :
  size ss = size qs ->
  size xs = size qs -> size es = size qs -> size ps = size qs -> size bs = size qs ->
  mk_pops (grad_aux scale gt xm xs ss qs es) ps bs xs
  = gpops (mgen (fun p xm x => scale p.1 (gt xm x p.2))) (zip ss qs) xm xs bs (zip es ps).
Proof.
elim: qs ss xs es ps bs xm => [|q qs IH] [|s ss] [|x xs] [|e es] [|po ps] [|b bs] xm //=.
move=> [s0] [s1] [s2] [s3] [s4]; congr (_ :: _); exact: IH.
Qed.

(** The kernel as a sweep over joint draws. *)
Definition l_sum key s0 x0 xs b0 bs (pp : seq (setting * Q)) backward : (seq X * seq 'I_n -> R) -> R :=
  skern rs mv (fun x0 i => G0 (x0 i) + logH s0 x0 (scale s0 (g0 (x0 i))) (x0 i)) (l_Gamma_t_tilde scale logH Gt gt)
    (@minus_max n') (@normalize n) Gt id snd (mlaw s0) (mgen0 (fun s x => scale s (g0 x)) s0)
    (fun p => mlaw p.1) (mgen (fun p xm x => scale p.1 (gt xm x p.2))) key x0 xs b0 bs pp backward.

Lemma l_kernelE key s0 ss qs backward x0 xs b0 bs f : size ss = size qs -> size xs = size qs -> size bs = size qs ->
  E (drop_weights (l_kernel noise scale logH rs mv G0 Gt g0 gt key x0 xs b0 bs s0 ss qs backward)) f
  = l_sum key s0 x0 xs b0 bs (zip ss qs) backward f.
Proof.
move=> sz sx sb; set pp := zip ss qs.
have spp : size pp = size qs by rewrite size_zip sz minnn.
rewrite /drop_weights E_bind /l_kernel E_bind /l_forward (fst_noise sz) (fst_iid sz).
apply: E_two_normals => e0 es p0 ps se sp.
rewrite l_pops //; first by rewrite /drop_weights E_bind map_id snd_zip // /aux_sweep E_bind.
- by rewrite se.
- by rewrite sp.
Qed.

Theorem l_good key s0 ss qs backward :
  (forall s, exists S : pop -> R, forall (x : pop) b phi,
     \sum_u noise s (u - (x b + phi)) * \prod_(i | i != b) noise s (x i - u)
     = S x * exp (logH s x phi (x b))) ->
  size ss = size qs ->
  good (size qs) (path_target G0 Gt qs)
    (fun x0 xs b0 bs => E (drop_weights (l_kernel noise scale logH rs mv G0 Gt g0 gt key x0 xs b0 bs s0 ss qs backward))).
Proof.
move=> hH sz; set pp := zip ss qs.
have spp : size pp = size qs by rewrite size_zip sz minnn.
have := @marginal_good (fun s x => scale s (g0 x)) (fun p xm x => scale p.1 (gt xm x p.2))
  (fun s x i => logH s x (scale s (g0 (x i))) (x i))
  (fun p xm xt i => logH p.1 xt (scale p.1 (gt (xm i) (xt i) p.2)) (xt i)) _ _
  (@minus_max n') (@normalize n) (setting * Q) id (l_Gamma_t_tilde scale logH Gt gt)
  minus_maxE _ _ key s0 pp backward.
rewrite snd_zip // spp => H; apply: eq_good (H _ _ _ _) => //; first last.
- by move=> p xm; have [S HS] := hH p.1; exists S => x b; rewrite HS.
- by move=> s; have [S HS] := hH s; exists S => x b; rewrite HS.
by move=> x0 xs b0 bs f sx sb; exact: l_kernelE.
Qed.

(** ** Given the auxiliary variables (al_csmc_f) *)
Section Given.
Hypothesis ldE : forall s, exists c, c != 0 /\ forall z, exp (ld s z) = c * noise s z.

Definition ugen (p : setting * X * Q) (xm : X) (b : 'I_n) (x : X) (e : pop) : pop := mk_pop p.1.2 e b x.

Lemma sum_given s u (g : X -> R) (b : 'I_n) (F : pop -> R) :
  \sum_x exp (g x) * (\sum_e iid (noise s) e * F (mk_pop u e b x))
  = \sum_(xt : pop) (exp (ld s 0) / noise s 0 * \prod_i noise s (xt i - u))
      * exp (g (xt b) - ld s (xt b - u)) * F xt.
Proof.
transitivity (\sum_x exp (g x) * (\sum_(z : pop) (\prod_i noise s (z i - u)) * F (upd z b x))).
  apply: eq_bigr => x _; congr (_ * _).
  by rewrite -(sum_iid_shift _ _ (fun z => F (upd z b x))).
rewrite (@sum_upd_all _ _ (fun _ y => noise s (y - u)) b (fun x => exp (g x))); last first.
  rewrite -(proj2 (noiseP s)) (reindex_inj (addIr u)) /=.
  by apply: eq_bigr => y _; rewrite addrK.
apply: eq_bigr => xt _; congr (_ * _).
have [c [c0 Hc]] := ldE s.
have nz z : noise s z != 0.
  by apply: contraTneq (expR_gt0 (ld s z)) => e; rewrite Hc e mulr0 ltxx.
rewrite expRB !Hc [in RHS](bigD1 b) //=.
move: (\prod_(i | i != b) _) (exp _) (noise s (xt b - u)) (nz (xt b - u)) (noise s 0) (nz 0) => p e m0 mu0 k k0.
toR; field; repeat split; by apply/eqP.
Qed.

Theorem given_good key s0 u0 pp backward :
  good (size pp) (path_target (al_Gamma_0_tilde ld scale G0 g0 s0 u0) (al_Gamma_t_tilde ld scale Gt gt) pp)
    (fun x0 xs b0 bs =>
     skern rs mv (al_G_0_tilde ld scale G0 g0 s0 u0) (al_G_t_tilde ld scale Gt gt) (@minus_max n') (@normalize n)
       (al_Gamma_t_tilde ld scale Gt gt) id id (iid (noise s0)) (fun b x e => mk_pop u0 e b x)
       (fun p => iid (noise p.1.1)) ugen key x0 xs b0 bs pp backward).
Proof.
suff [K0 K P0 P1] : [/\ forall b x (y : pop), mk_pop u0 y b x b = x, forall p xm b x y, ugen p xm b x y b = x,
    exists S : pop -> R, forall b F, \sum_x exp (al_Gamma_0_tilde ld scale G0 g0 s0 u0 x) *
        (\sum_y iid (noise s0) y * F (mk_pop u0 y b x))
      = \sum_x0 S x0 * exp (al_G_0_tilde ld scale G0 g0 s0 u0 x0 b) * F x0
  & forall p (xm : pop), exists S : pop -> R, forall b F,
    \sum_x exp (al_Gamma_t_tilde ld scale Gt gt (xm b) x p) * (\sum_y iid (noise p.1.1) y * F (ugen p (xm b) b x y))
    = \sum_xt S xt * exp (al_G_t_tilde ld scale Gt gt xm xt p b) * F xt].
  rewrite -[in path_target _ _ pp](map_id pp).
  have L s : prob_vec (@iid X n' (noise s)) by exact: iid_prob.
  have mm := minus_maxE.
  split=> [gm f|c eps mvb f fc]; first by apply: skern_invariant.
  by apply: skern_error mvb fc.
split.
- by move=> b x y; rewrite /mk_pop upd_same.
- by move=> p xm b x y; rewrite /ugen /mk_pop upd_same.
- by eexists => b F; rewrite sum_given.
- move=> p xm; eexists => b F.
  by rewrite (sum_given p.1.1 p.1.2 (fun x => al_Gamma_t_tilde ld scale Gt gt (xm b) x p)).
Qed.

(** Law of the auxiliary variables given the reference. *)
Fixpoint aux_law (xm : X) (xs : seq X) (ss : seq setting) (qs : seq Q) (us : seq X) : R :=
  match xs, ss, qs, us with
  | x :: xs', s :: ss', q :: qs', u :: us' =>
      noise s (u - (x + scale s (gt xm x q))) * aux_law x xs' ss' qs' us'
  | _, _, _, _ => 1
  end.

Lemma lsum_aux xm xs ss qs G : size ss = size qs -> size xs = size qs ->
  lsum [seq noise s | s <- ss] (fun es => G (grad_aux scale gt xm xs ss qs es))
  = \sum_(us : (size qs).-tuple X) aux_law xm xs ss qs us * G us.
Proof.
elim: qs xm xs ss G => [|q qs IH] xm [|x xs] [|s ss] G //=.
  by move=> _ _; rewrite (sum_tuple0 (fun us => 1 * G us)) mul1r.
move=> [s1] [s2].
rewrite (@sum_tuple_cons X _ (fun us => (match us with u :: us' => noise s (u - (x + scale s (gt xm x q))) * aux_law x xs ss qs us' | [::] => 1 end) * G us)).
rewrite (eq_bigr (fun y => noise s y * (\sum_(us : (size qs).-tuple X) aux_law x xs ss qs us *
    G ((x + scale s (gt xm x q) + y) :: us)))); last first.
  by move=> y _; rewrite (IH x xs ss (fun us => G ((x + scale s (gt xm x q) + y) :: us))).
rewrite (sum_shift _ _ (fun u => \sum_(us : (size qs).-tuple X) aux_law x xs ss qs us * G (u :: us))).
apply: eq_bigr => u _; rewrite mulr_sumr; apply: eq_bigr => us _.
by rewrite mulrA.
Qed.

Definition ucst (ss : seq setting) : R := \prod_(s <- ss) (exp (ld s 0) / noise s 0).

Lemma noise_nz s z : noise s z != 0.
Proof.
have [c [c0 Hc]] := ldE s.
by apply: contraTneq (expR_gt0 (ld s z)) => e; rewrite Hc e mulr0 ltxx.
Qed.

Lemma exp_ldE s z : exp (ld s z) = exp (ld s 0) / noise s 0 * noise s z.
Proof.
have [c [c0 Hc]] := ldE s; rewrite !Hc; have := noise_nz s 0.
by move: (noise s 0) => k /eqP k0; toR; field.
Qed.

Lemma aux_target xm xs ss qs us : size ss = size qs -> size xs = size qs -> size us = size qs ->
  exp (log_path (al_Gamma_t_tilde ld scale Gt gt) xm xs (zip (zip ss us) qs))
  = ucst ss * (exp (log_path Gt xm xs qs) * aux_law xm xs ss qs us).
Proof.
elim: qs xm xs ss us => [|q qs IH] xm [|x xs] [|s ss] [|u us] //=.
  by move=> _ _ _; rewrite /ucst big_nil exp_0 !mul1r.
move=> [s1] [s2] [s3]; rewrite /ucst big_cons -/(ucst ss) !expRD IH // exp_ldE.
have -> : u - x - scale s (gt xm x q) = u - (x + scale s (gt xm x q)) by rewrite opprD addrA.
move: (noise _ (u - _)) (exp _ / _) (ucst ss) (aux_law _ _ _ _ _) (exp (Gt _ _ _)) (exp (log_path _ _ _ _)) => b a c d e g.
by Rring.
Qed.

Lemma u_pops ss us es bs xs xm qs : size ss = size qs -> size us = size qs -> size es = size qs ->
  size bs = size qs -> size xs = size qs ->
  mk_pops us es bs xs = gpops ugen (zip (zip ss us) qs) xm xs bs es.
Proof.
elim: qs ss us es bs xs xm => [|q qs IH] [|s ss] [|u us] [|e es] [|b bs] [|x xs] xm //=.
by move=> [s1] [s2] [s3] [s4] [s5]; congr (_ :: _); exact: IH.
Qed.

Lemma grad_aux_size xm xs ss qs es : size ss = size qs -> size xs = size qs -> size es = size qs ->
  size (grad_aux scale gt xm xs ss qs es) = size qs.
Proof.
elim: qs ss xs es xm => [|q qs IH] [|s ss] [|x xs] [|e es] xm //= [s1] [s2] [s3].
by rewrite IH.
Qed.

Definition al_given key x0 xs b0 bs s0 ss qs backward (f : seq X * seq 'I_n -> R) u0 us : R :=
  skern rs mv (al_G_0_tilde ld scale G0 g0 s0 u0) (al_G_t_tilde ld scale Gt gt) (@minus_max n') (@normalize n)
       (al_Gamma_t_tilde ld scale Gt gt) id id (iid (noise s0)) (fun b x e => mk_pop u0 e b x)
       (fun p => iid (noise p.1.1)) ugen key x0 xs b0 bs (zip (zip ss us) qs) backward f.

Lemma al_kernelE key x0 xs b0 bs s0 ss qs backward f :
  size ss = size qs -> size xs = size qs -> size bs = size qs ->
  E (drop_weights (al_kernel noise ld scale rs mv G0 Gt g0 gt key x0 xs b0 bs s0 ss qs backward)) f
  = \sum_u0 \sum_(us : (size qs).-tuple X)
      noise s0 (u0 - (x0 + scale s0 (g0 x0))) * aux_law x0 xs ss qs us
      * al_given key x0 xs b0 bs s0 ss qs backward f u0 us.
Proof.
move=> s1 s2 s3; rewrite /drop_weights E_bind /al_kernel E_bind /al_forward E_bind E_normals.
transitivity (\sum_e0 noise s0 e0 * lsum [seq noise s | s <- ss] (fun es =>
   al_given key x0 xs b0 bs s0 ss qs backward f (x0 + scale s0 (g0 x0) + e0) (grad_aux scale gt x0 xs ss qs es))).
  apply: eq_bigr => e0 _; congr (_ * _); apply: eq_lsum_size => es; rewrite size_map => se.
  have su : size (grad_aux scale gt x0 xs ss qs es) = size qs by rewrite grad_aux_size ?se.
  rewrite E_bind E_normals; apply: eq_bigr => p0 _; congr (_ * _).
  rewrite (_ : [seq iid (noise p.1.1) | p <- zip (zip ss (grad_aux scale gt x0 xs ss qs es)) qs]
     = [seq iid (noise s) | s <- ss]); last first.
    move: (grad_aux _ _ _ _ _ _ _) su => us su {se es}.
    by elim: qs ss us s1 su {s2 s3} => [|q qs IH] [|s ss] [|u us] //= [t1] [t2]; rewrite IH.
  apply: eq_lsum_size => ps; rewrite size_map => sp.
  rewrite (@u_pops ss _ ps bs xs x0 qs) ?sp //.
  by rewrite !map_id /drop_weights [RHS]E_bind /aux_sweep [RHS]E_bind [LHS]E_bind.
rewrite (eq_bigr (fun e0 => noise s0 e0 * (\sum_(us : (size qs).-tuple X) aux_law x0 xs ss qs us *
     al_given key x0 xs b0 bs s0 ss qs backward f (x0 + scale s0 (g0 x0) + e0) us))); last first.
  by move=> e0 _; rewrite (lsum_aux x0 (al_given key x0 xs b0 bs s0 ss qs backward f (x0 + scale s0 (g0 x0) + e0))).
rewrite (sum_shift _ _ (fun u0 => \sum_(us : (size qs).-tuple X) aux_law x0 xs ss qs us *
     al_given key x0 xs b0 bs s0 ss qs backward f u0 us)).
by apply: eq_bigr => u0 _; rewrite mulr_sumr; apply: eq_bigr => us _; rewrite mulrA.
Qed.

Lemma traj_sum_exchange m (B : finType) (F : X -> seq X -> 'I_n -> seq 'I_n -> B -> R) :
  traj_sum m (fun x0 xs b0 bs => \sum_b F x0 xs b0 bs b)
  = \sum_b traj_sum m (fun x0 xs b0 bs => F x0 xs b0 bs b).
Proof.
rewrite /traj_sum [RHS]exchange_big /=; apply: eq_bigr => x0 _.
rewrite [RHS]exchange_big /=; apply: eq_bigr => b0 _.
rewrite [RHS]exchange_big /=; apply: eq_bigr => xs _.
by rewrite [RHS]exchange_big.
Qed.

Lemma shift_prob s m : \sum_u noise s (u - m) = 1.
Proof.
rewrite -(proj2 (noiseP s)) (reindex_inj (addIr m)) /=.
by apply: eq_bigr => y _; rewrite addrK.
Qed.

Lemma aux_law_sum x0 xs ss qs : size ss = size qs -> size xs = size qs ->
  \sum_(us : (size qs).-tuple X) aux_law x0 xs ss qs us = 1.
Proof.
move=> s1 s2; have := @lsum_aux x0 xs ss qs (fun _ => 1) s1 s2; rewrite lsum_const => [H|nu].
  by rewrite [RHS]H; apply: eq_bigr => us _; rewrite mulr1.
by move=> /List.in_map_iff [s [<- _]].
Qed.

Lemma traj_sum_scale m (k : R) (F : X -> seq X -> 'I_n -> seq 'I_n -> R) :
  traj_sum m (fun x0 xs b0 bs => k * F x0 xs b0 bs) = k * traj_sum m F.
Proof.
rewrite /traj_sum mulr_sumr; apply: eq_bigr => x0 _; rewrite mulr_sumr; apply: eq_bigr => b0 _.
by rewrite mulr_sumr; apply: eq_bigr => xs _; rewrite mulr_sumr.
Qed.

Theorem al_good key s0 ss qs backward : size ss = size qs ->
  good (size qs) (path_target G0 Gt qs)
    (fun x0 xs b0 bs => E (drop_weights (al_kernel noise ld scale rs mv G0 Gt g0 gt key x0 xs b0 bs s0 ss qs backward))).
Proof.
move=> sz.
pose K := (exp (ld s0 0) / noise s0 0 * ucst ss)^-1.
have Kp : 0 < exp (ld s0 0) / noise s0 0 * ucst ss.
  have pos s : 0 < exp (ld s 0) / noise s 0.
    by rewrite divr_gt0 ?expR_gt0 // lt0r noise_nz (proj1 (noiseP s)).
  rewrite mulr_gt0 //.
  rewrite /ucst; elim: (ss) => [|s l IH]; first by rewrite big_nil ltr01.
  by rewrite big_cons mulr_gt0.
have K0 := lt0r_neq0 Kp.
pose T u0 us := path_target (al_Gamma_0_tilde ld scale G0 g0 s0 u0) (al_Gamma_t_tilde ld scale Gt gt) (zip (zip ss us) qs).
have J u0 (us : (size qs).-tuple X) x0 (xs : (size qs).-tuple X) :
    path_target G0 Gt qs x0 xs * (noise s0 (u0 - (x0 + scale s0 (g0 x0))) * aux_law x0 xs ss qs us)
    = K * T u0 us x0 xs.
  rewrite /T /path_target !expRD aux_target ?size_tuple // exp_ldE /K.
  have -> : u0 - x0 - scale s0 (g0 x0) = u0 - (x0 + scale s0 (g0 x0)) by rewrite opprD addrA.
  move: K0; move: (exp (G0 _)) (exp (log_path _ _ _ _)) (noise _ (u0 - _)) (exp _ / _) (ucst ss) (aux_law _ _ _ _ _) => e g b a c d K0.
  have := mulVf K0; move: ((a * c)^-1) => i Hi.
  by rewrite -[LHS]mul1r -Hi; Rring.
have st us : size us = size qs -> size (zip (zip ss us) qs) = size qs.
  by move=> su; rewrite !size_zip sz su !minnn.
have kerE f : traj_sum (size qs) (fun x0 xs b0 bs => path_target G0 Gt qs x0 xs *
     E (drop_weights (al_kernel noise ld scale rs mv G0 Gt g0 gt key x0 xs b0 bs s0 ss qs backward)) f)
   = \sum_u0 \sum_(us : (size qs).-tuple X) K * traj_sum (size qs) (fun x0 xs b0 bs =>
       T u0 us x0 xs * al_given key x0 xs b0 bs s0 ss qs backward f u0 us).
  under [RHS]eq_bigr do under eq_bigr do rewrite -traj_sum_scale.
  under [RHS]eq_bigr do rewrite -traj_sum_exchange.
  rewrite -traj_sum_exchange.
  apply: eq_bigr => x0 _; apply: eq_bigr => b0 _; apply: eq_bigr => xs _; apply: eq_bigr => bs _.
  rewrite al_kernelE ?size_tuple // mulr_sumr; apply: eq_bigr => u0 _; rewrite mulr_sumr.
  by apply: eq_bigr => us _; rewrite [RHS]mulrA -J -!mulrA.
have funE (g : seq X -> seq 'I_n -> R) :
   traj_sum (size qs) (fun x0 xs b0 bs => path_target G0 Gt qs x0 xs * g (x0 :: xs) (b0 :: bs))
   = \sum_u0 \sum_(us : (size qs).-tuple X) K * traj_sum (size qs) (fun x0 xs b0 bs =>
       T u0 us x0 xs * g (x0 :: xs) (b0 :: bs)).
  under [RHS]eq_bigr do under eq_bigr do rewrite -traj_sum_scale.
  under [RHS]eq_bigr do rewrite -traj_sum_exchange.
  rewrite -traj_sum_exchange.
  apply: eq_bigr => x0 _; apply: eq_bigr => b0 _; apply: eq_bigr => xs _; apply: eq_bigr => bs _.
  transitivity (\sum_u0 \sum_(us : (size qs).-tuple X) path_target G0 Gt qs x0 xs * g (x0 :: xs) (b0 :: bs) *
     (noise s0 (u0 - (x0 + scale s0 (g0 x0))) * aux_law x0 xs ss qs us)).
    rewrite -[LHS]mulr1 -[X in _ * X = _](shift_prob s0 (x0 + scale s0 (g0 x0))) mulr_sumr; apply: eq_bigr => u0 _.
    by rewrite -mulr_sumr; congr (_ * _); rewrite -mulr_sumr aux_law_sum ?size_tuple ?mulr1.
  apply: eq_bigr => u0 _; apply: eq_bigr => us _.
  by rewrite [RHS]mulrA -J mulrAC.
split=> [gm f|c eps mvb f fc].
  rewrite kerE funE; apply: eq_bigr => u0 _; apply: eq_bigr => us _; congr (_ * _).
  have [H _] := given_good key s0 u0 (zip (zip ss us) qs) backward.
  by have := H gm f; rewrite st ?size_tuple.
rewrite kerE funE (funE (fun _ _ => eps)) -sumrB; under eq_bigr do rewrite -sumrB.
apply: le_trans (ler_norm_sum _ _ _) _; apply: ler_sum => u0 _.
apply: le_trans (ler_norm_sum _ _ _) _; apply: ler_sum => us _.
rewrite -mulrBr normrM gtr0_norm ?invr_gt0 // ler_pmul2l ?invr_gt0 //.
have [_ H] := given_good key s0 u0 (zip (zip ss us) qs) backward.
by have := H _ _ mvb f fc; rewrite st ?size_tuple.
Qed.

End Given.

End Aux.
