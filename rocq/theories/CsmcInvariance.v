(** * CsmcInvariance: the kernel of csmc.py leaves its target invariant. *)
From Coq Require Import Reals FunctionalExtensionality.
From mathcomp Require Import all_ssreflect all_algebra.
From Verif Require Import RInst Prog ProgTheory Resampling Spec ResamplingProofs.
From Verif Require Import KillingProofs MoveProofs ResamplingSpecs Csmc SmcTheory BackwardProofs.

Set Implicit Arguments.
Unset Strict Implicit.
Unset Printing Implicit Defensive.
Import GRing.Theory Num.Theory Order.TTheory.
Local Open Scope ring_scope.

Lemma sum_tuple0 (X : finType) (F : seq X -> R) : \sum_(t : 0.-tuple X) F t = F [::].
Proof.
rewrite (bigD1 [tuple]) //= big1 ?addr0 // => t; rewrite (tuple0 t) => /eqP //.
Qed.

Lemma sum_tuple_cons (X : finType) m (F : seq X -> R) :
  \sum_(t : m.+1.-tuple X) F t = \sum_(x : X) \sum_(t : m.-tuple X) F (x :: t).
Proof.
rewrite pair_big /= (reindex (fun p : X * m.-tuple X => [tuple of p.1 :: p.2])) /=.
  by apply: eq_bigr => -[x t].
exists (fun t : m.+1.-tuple X => (thead t, [tuple of behead t])) => [[x t] _|t _] /=.
  by congr (_, _); apply: val_inj.
by rewrite [RHS]tuple_eta; apply: val_inj.
Qed.

(** Requirements on the callbacks. *)
Section Good.
Variable n : nat.

Definition good_resampler (rs : resampler n) : Prop := forall key w, prob_vec w ->
  (exists rho, conditional_of w rho (fun i j => rs key w i j true))
  /\ forall i j, proper (rs key w i j true).

Definition good_mover (mv : mover n) : Prop := forall key w, prob_vec w ->
  forall f : 'I_n -> R, \sum_k w k * E (mv key w k) (fun r => f r.1) = \sum_k w k * f k.

End Good.

Section FsumTuple.
Variables (X : finType) (n' : nat).
Local Notation n := n'.+1.
Variable (Q : Type) (Gam : X -> X -> Q -> R) (G0 : X -> R).

Lemma fsum_tuple (sts : seq (gstep X n')) qs z F :
  [seq g_gam s | s <- sts] = [seq (fun x y => Gam x y q) | q <- qs] ->
  fsum sts z F
  = \sum_(xs : (size qs).-tuple X) \sum_(bs : (size qs).-tuple 'I_n)
      exp (log_path Gam z.1 xs qs) * F (zip xs bs).
Proof.
elim: sts qs z F => [|s sts IH] [|q qs] z F //=.
  rewrite (sum_tuple0 (fun xs => \sum_(bs : 0.-tuple 'I_n) exp (log_path Gam z.1 xs [::]) * F (zip xs bs))) /=.
  by rewrite (sum_tuple0 (fun bs => exp 0 * F (zip [::] bs))) /= exp_0 mul1r.
move=> [eg em].
rewrite (@sum_tuple_cons _ _ (fun xs => \sum_(bs : (size qs).+1.-tuple 'I_n) exp (log_path Gam z.1 xs (q :: qs)) * F (zip xs bs))).
rewrite exchange_big; apply: eq_bigr => x _ /=.
under [RHS]eq_bigr do rewrite (@sum_tuple_cons _ _ (fun bs => exp (Gam z.1 x q + log_path Gam x _ qs) * F (zip (x :: _) bs))).
rewrite exchange_big; apply: eq_bigr => b _ /=.
rewrite (IH qs) // mulr_sumr; apply: eq_bigr => xs _; rewrite mulr_sumr; apply: eq_bigr => bs _.
by rewrite eg expRD mulrA.
Qed.

Lemma psum_traj (gi : ginit X n') z0 (sts : seq (gstep X n')) qs (F : seq (X * 'I_n) -> R) :
  g0_gam gi = G0 ->
  [seq g_gam s | s <- sts] = [seq (fun x y => Gam x y q) | q <- qs] ->
  traj_sum (size qs) (fun x0 xs b0 bs =>
     path_target G0 Gam qs x0 xs * F (rev (zip (x0 :: xs) (b0 :: bs))))
  = psum gi z0 (rev sts) F.
Proof.
move=> e0 eg; rewrite psum_rev exchange_big /traj_sum.
apply: eq_bigr => x0 _; apply: eq_bigr => b0 _; rewrite (fsum_tuple _ _ eg).
rewrite mulr_sumr; apply: eq_bigr => xs _; rewrite mulr_sumr; apply: eq_bigr => bs _.
by rewrite /path_target expRD -mulrA e0.
Qed.

End FsumTuple.

(** The code's kernel in the form of SmcTheory, for any type of states. *)
Section Forms.
Variables (X : Type) (n' : nat) (P Q : Type).
Local Notation n := n'.+1.
Local Notation pop := (pop X n').
Local Notation anc := (anc n').
Local Notation lwts := (lwts n').
Variable md : model X n' P Q.
Variable rs : resampler n.
Variable mv : mover n.

Definition cinit (key : key) : ginit X n' :=
  GInit (fun b x => do x0 <- M0_rvs md (split key 0); Ret (upd x0 b x)) (log_w0 md) (Gamma0 md).

Definition cstep (key : key) (p : P) (q : Q) : gstep X n' :=
  GStep (fun w i j => rs (split key 1) w i j true)
        (fun xm b x => do xt <- Mt_rvs md (split key 0) xm p; Ret (upd xt b x))
        (fun xm xt => log_wt md xm xt p q)
        (fun x y => Gammat md x y q).

Lemma upd_same (f : pop) b x : upd f b x b = x.
Proof. by rewrite /upd ffunE eqxx. Qed.

Definition isteps (ins : seq (inp X n' P Q)) := [seq cstep (i_key i) (i_p i) (i_q i) | i <- ins].

Lemma inputs_gam ps qs b0 bs key c xs : size ps = size qs -> size bs = size qs -> size xs = size qs ->
  [seq g_gam s | s <- isteps (inputs ps qs b0 bs key c xs)]
  = [seq (fun x y => Gammat md x y q) | q <- qs].
Proof.
elim: qs ps b0 bs c xs => [|q qs IH] [|p ps] b0 [|b bs] c [|x xs] //= [s1] [s2] [s3].
by rewrite IH.
Qed.

Lemma inputs_ref ps qs b0 bs key c xs : size ps = size qs -> size bs = size qs -> size xs = size qs ->
  [seq (i_x i, i_b i) | i <- @inputs X n' P Q ps qs b0 bs key c xs] = zip xs bs.
Proof.
elim: qs ps b0 bs c xs => [|q qs IH] [|p ps] b0 [|b bs] c [|x xs] //= [s1] [s2] [s3].
by rewrite IH.
Qed.

Lemma inputs_chained ps qs b0 bs key c xs :
  chained (fun i : inp X n' P Q => (i_x i, i_b i)) (@i_bm1 X n' P Q) b0 (inputs ps qs b0 bs key c xs).
Proof.
by elim: qs ps b0 bs c xs => [|q qs IH] [|p ps] b0 [|b bs] c [|x xs].
Qed.

Lemma inputs_steps ps qs b0 bs key c xs b0' bs' xs' :
  size ps = size qs -> size bs = size qs -> size xs = size qs -> size bs' = size qs -> size xs' = size qs ->
  isteps (inputs ps qs b0 bs key c xs) = isteps (inputs ps qs b0' bs' key c xs').
Proof.
elim: qs ps b0 bs c xs b0' bs' xs' => [|q qs IH] [|p ps] b0 [|b bs] c [|x xs] b0' [|b' bs'] [|x' xs'] //=.
by move=> [s1] [s2] [s3] [s4] [s5]; congr (_ :: _); apply: IH.
Qed.

Lemma exp_normalize_log (l : lwts) : (fun i => exp (normalize_log l i)) = normalize (normalize_log l).
Proof. by apply: functional_extensionality => i; rewrite normalize_normalize. Qed.

Lemma E_forward key x0 xs b0 bs ps qs z0 f :
  size ps = size qs -> size bs = size qs -> size xs = size qs ->
  E (forward_pass rs md key x0 xs b0 bs ps qs true) f
  = E (gfwd (cinit key) z0 (rev (isteps (inputs ps qs b0 bs (split key 1) 0 xs)))
          (rev (zip (x0 :: xs) (b0 :: bs)))) (fun h => f (h.1, rev h.2)).
Proof.
move=> s1 s2 s3; rewrite /forward_pass E_bind.
have := @E_scan_gfwd X n' (cinit key) z0 _ (fwd_body rs md true)
  (fun i => cstep (i_key i) (i_p i) (i_q i)) (fun i => (i_x i, i_b i)) (@i_bm1 X n' P Q) _ (x0, b0)
  (inputs ps qs b0 bs (split key 1) 0 xs) (fun h0 _ outs => f (h0, outs)).
rewrite inputs_ref // => <-.
- rewrite E_bind; apply: eq_E => y /=; rewrite E_bind exp_normalize_log.
  by apply: eq_E => -[c o].
- move=> w x i g; rewrite /fwd_body E_bind; apply: eq_E => A /=.
  by rewrite !E_bind; apply: eq_E => xt /=; rewrite exp_normalize_log.
- exact: inputs_chained.
Qed.

(** The code's kernel, as the generic one. *)
Definition mv_key (backward : bool) (key : key) (m : nat) :=
  if backward then split (split key 2) m else split key 2.

Definition gmv (k : key) (w : 'I_n -> R) (b : 'I_n) : prog 'I_n := do r <- mv k w b; Ret r.1.

Lemma E_kernel key x0 xs b0 bs ps qs backward z0 f :
  size ps = size qs -> size bs = size qs -> size xs = size qs ->
  E (drop_weights (kernel rs mv md key x0 xs b0 bs ps qs backward true)) f
  = E (gkern (cinit key) z0 (fun c => split (split key 2) c) (gmv (mv_key backward key (size qs)))
         (rev (isteps (inputs ps qs b0 bs (split key 1) 0 xs)))
         backward (rev (zip (x0 :: xs) (b0 :: bs))))
      (fun p => f (unzip1 (rev p), unzip2 (rev p))).
Proof.
move=> s1 s2 s3; rewrite /drop_weights E_bind /kernel E_bind (@E_forward key x0 xs b0 bs ps qs z0) //.
rewrite /gkern E_bind; apply: eq_E_always.
apply: always_imp (gfwd_size (cinit key) z0 (rev (isteps (inputs ps qs b0 bs (split key 1) 0 xs)))
     (rev (zip (x0 :: xs) (b0 :: bs)))) => h sz.
rewrite E_bind /gmv E_bind.
have -> : (head z0 (rev (zip (x0 :: xs) (b0 :: bs)))).2 = last b0 bs.
  rewrite -nth0 nth_rev //= subn1 /= -last_nth /=.
  have le : (size bs <= size xs)%N by rewrite s2 s3.
  rewrite -[in RHS](unzip2_zip le).
  by elim: (zip xs bs) (x0) (b0) => [|[a b] l IH] y c //=.
have szq : size h.2 = size qs.
  rewrite sz size_rev size_map -(size_map (fun i => (i_x i, i_b i))) inputs_ref //.
  by rewrite size_zip s2 s3 minnn.
rewrite /mv_key /gback; case: backward.
- rewrite (E_sampling mv (split key 2) (st := rev (isteps (inputs ps qs b0 bs (split key 1) 0 xs)))) //; last first.
    by rewrite map_rev inputs_gam // map_rev.
  by rewrite szq -surjective_pairing [RHS]E_bind; apply: eq_E => -[k al] /=; apply: eq_E.
- by rewrite (E_scanning mv) -surjective_pairing [RHS]E_bind; apply: eq_E.
Qed.

End Forms.

Section Invariance.
Variables (X : finType) (n' : nat) (P Q : Type).
Local Notation n := n'.+1.
Local Notation pop := (pop X n').
Local Notation anc := (anc n').
Local Notation lwts := (lwts n').
Variable md : model X n' P Q.
Variable rs : resampler n.
Variable mv : mover n.

(** General requirement on the proposals: the target of the step, times the law
    of the other particles given the reference, is the weight of the
    reference times a quantity that treats all particles alike. *)
Definition good_init : Prop := forall key,
  proper (M0_rvs md key) /\
  exists S : pop -> R, forall b F,
    \sum_x exp (Gamma0 md x) * E (M0_rvs md key) (fun x0 => F (upd x0 b x))
    = \sum_x0 S x0 * exp (Gamma0 md (x0 b) - M0_logpdf md x0 b) * F x0.

Definition good_step : Prop := forall key p q (xm : pop),
  proper (Mt_rvs md key xm p) /\
  exists S : pop -> R, forall b F,
    \sum_x exp (Gammat md (xm b) x q) * E (Mt_rvs md key xm p) (fun xt => F (upd xt b x))
    = \sum_xt S xt * exp (Gammat md (xm b) (xt b) q - Mt_logpdf md xm xt p b) * F xt.

Hypotheses (gi_ok : good_init) (gs_ok : good_step) (rs_good : good_resampler rs).
Local Notation cinit := (cinit md).
Local Notation cstep := (cstep md rs).
Local Notation isteps := (isteps md rs).
Local Notation gmv := (gmv mv).

Lemma absorb_norm (S : pop -> R) (l : pop -> lwts) b F :
  \sum_xt S xt * exp (l xt b) * F xt
  = \sum_xt (S xt * \sum_j exp (l xt j)) * exp (normalize_log (l xt) b) * F xt.
Proof.
apply: eq_bigr => xt _; congr (_ * _); rewrite -mulrA; congr (_ * _).
rewrite -/(normalize _ b) normalizeE mulrCA divff ?mulr1 //.
apply: lt0r_neq0; exact: sum_exp_gt0.
Qed.

Lemma cinit_ok key : init_ok (cinit key).
Proof.
have [pp [S HS]] := gi_ok (split key 0); split=> /=.
- exists (fun x0 => S x0 * \sum_j exp (Gamma0 md (x0 j) - M0_logpdf md x0 j)) => b F.
  rewrite -(absorb_norm S (fun x0 j => Gamma0 md (x0 j) - M0_logpdf md x0 j)) -HS.
  by apply: eq_bigr => x _; rewrite E_bind.
- by move=> b x; apply: proper_bind.
- move=> b x; apply/almost_bind; apply: always_almost; apply: always_true => x0 /=.
  by rewrite upd_same.
Qed.

Lemma cstep_ok key p q : rs_ok (cstep key p q) /\ prop_ok (cstep key p q).
Proof.
split; first by move=> w pw; exact: rs_good.
move=> xm; have [pp [S HS]] := gs_ok (split key 0) p q xm; split=> /=.
- exists (fun xt => S xt * \sum_j exp (Gammat md (xm j) (xt j) q - Mt_logpdf md xm xt p j)) => b F.
  rewrite -(absorb_norm S (fun xt j => Gammat md (xm j) (xt j) q - Mt_logpdf md xm xt p j)) -HS.
  by apply: eq_bigr => x _; rewrite E_bind.
- by move=> b x; apply: proper_bind.
- move=> b x; apply/almost_bind; apply: always_almost; apply: always_true => x0 /=.
  by rewrite upd_same.
Qed.

Lemma isteps_ok ins : steps_ok (rev (isteps ins)).
Proof.
rewrite /isteps -map_rev; elim: (rev ins) => [|i l IH] //=.
by have [] := cstep_ok (i_key i) (i_p i) (i_q i).
Qed.

(** The kernel in chronological order, as a functional of the generic one. *)
Lemma kernel_gkern key ps qs backward (x : X) (f : seq X -> seq 'I_n -> R) :
  size ps = size qs ->
  let z0 := (x, ord0 : 'I_n) in
  exists sts, [/\ steps_ok (rev sts),
    [seq g_gam s | s <- sts] = [seq (fun x y => Gammat md x y q) | q <- qs] &
    traj_sum (size qs) (fun x0 xs b0 bs => path_target (Gamma0 md) (Gammat md) qs x0 xs *
      E (drop_weights (kernel rs mv md key x0 xs b0 bs ps qs backward true)) (fun r => f r.1 r.2))
    = psum (cinit key) z0 (rev sts) (fun p =>
        E (gkern (cinit key) z0 (fun c => split (split key 2) c) (gmv (mv_key backward key (size qs)))
             (rev sts) backward p) (fun p => f (unzip1 (rev p)) (unzip2 (rev p))))].
Proof.
move=> s1 z0.
pose xs0 := nseq (size qs) x; pose bs0 := nseq (size qs) (ord0 : 'I_n).
pose sts := isteps (inputs ps qs ord0 bs0 (split key 1) 0 xs0).
have eg : [seq g_gam s | s <- sts] = [seq (fun x y => Gammat md x y q) | q <- qs].
  by apply: inputs_gam; rewrite ?size_nseq.
exists sts; split=> //; first exact: isteps_ok.
rewrite -(@psum_traj X n' Q (Gammat md) (Gamma0 md) (cinit key) z0 sts qs
  (fun p => E (gkern _ _ _ _ _ _ p) _)) //.
apply: eq_bigr => x0 _; apply: eq_bigr => b0 _; apply: eq_bigr => xs _; apply: eq_bigr => bs _.
rewrite (@E_kernel X n' P Q md rs mv key x0 xs b0 bs ps qs backward z0) ?size_tuple //.
by rewrite (@inputs_steps X n' P Q md rs ps qs b0 bs (split key 1) 0 xs ord0 bs0 xs0) ?size_tuple ?size_nseq.
Qed.

Lemma traj_psum key qs (x : X) sts (f : seq X -> seq 'I_n -> R) :
  [seq g_gam s | s <- sts] = [seq (fun x y => Gammat md x y q) | q <- qs] ->
  traj_sum (size qs) (fun x0 xs b0 bs => path_target (Gamma0 md) (Gammat md) qs x0 xs *
      f (x0 :: xs) (b0 :: bs))
  = psum (cinit key) (x, ord0 : 'I_n) (rev sts) (fun p => f (unzip1 (rev p)) (unzip2 (rev p))).
Proof.
move=> eg; rewrite -(@psum_traj X n' Q (Gammat md) (Gamma0 md) (cinit key) (x, ord0) sts qs
     (fun p => f (unzip1 (rev p)) (unzip2 (rev p)))) //.
apply: eq_bigr => x0 _; apply: eq_bigr => b0 _; apply: eq_bigr => xs _; apply: eq_bigr => bs _.
by rewrite revK unzip1_zip ?unzip2_zip //= ?size_tuple.
Qed.

Theorem csmc_invariant key ps qs backward :
  good_mover mv -> size ps = size qs ->
  leaves_invariant (size qs) (path_target (Gamma0 md) (Gammat md) qs)
    (fun x0 xs b0 bs => drop_weights (kernel rs mv md key x0 xs b0 bs ps qs backward true)).
Proof.
move=> mv_good s1 f.
have [x _|] := pickP (pred_of_simpl (predT : simpl_pred X)); last first.
  by move=> no; rewrite /traj_sum !big1 // => x0 _; have := no x0.
have [sts [ok eg ->]] := kernel_gkern key backward x f s1.
rewrite gkern_invariant; [|exact: cinit_ok|exact: ok|]; first by rewrite (traj_psum key x f eg).
move=> lw g; rewrite -[RHS](mv_good (mv_key backward key (size qs)) (normalize lw)).
  by apply: eq_bigr => k _; rewrite /gmv E_bind.
exact: normalize_prob.
Qed.

(** With a move that is invariant up to an error [eps] on functions bounded by
    [c], the kernel is invariant up to [eps] times the total mass. *)
Theorem csmc_error key ps qs backward (f : seq X -> seq 'I_n -> R) c eps :
  (forall key w (g : 'I_n -> R), prob_vec w -> (forall k, `|g k| <= c) ->
     `|\sum_k w k * E (mv key w k) (fun r => g r.1) - \sum_k w k * g k| <= eps) ->
  (forall xs bs, `|f xs bs| <= c) -> size ps = size qs ->
  `| traj_sum (size qs) (fun x0 xs b0 bs => path_target (Gamma0 md) (Gammat md) qs x0 xs *
       E (drop_weights (kernel rs mv md key x0 xs b0 bs ps qs backward true)) (fun r => f r.1 r.2))
     - traj_sum (size qs) (fun x0 xs b0 bs => path_target (Gamma0 md) (Gammat md) qs x0 xs * f (x0 :: xs) (b0 :: bs)) |
  <= traj_sum (size qs) (fun x0 xs (b0 : 'I_n) bs => path_target (Gamma0 md) (Gammat md) qs x0 xs * eps).
Proof.
move=> mvb fc s1.
have [x _|] := pickP (pred_of_simpl (predT : simpl_pred X)); last first.
  by move=> no; rewrite /traj_sum !big1 ?subrr ?normr0 // => x0 _; have := no x0.
have [sts [ok eg e]] := kernel_gkern key backward x f s1.
rewrite e (traj_psum key x f eg) (traj_psum key x (fun _ _ => eps) eg).
apply: (@gkern_error X n' (cinit key) (x, ord0) (cinit_ok key) _ _ _ ok backward _ c eps) => //.
move=> lw g gc /=.
have := mvb (mv_key backward key (size qs)) (normalize lw) g (normalize_prob lw) gc.
by congr (`|_ - _| <= _); apply: eq_bigr => k _; rewrite /gmv E_bind.
Qed.

End Invariance.

(** ** Sufficient conditions *)

Section Sufficient.
Variables (X : finType) (n' : nat) (P Q : Type).
Local Notation n := n'.+1.
Local Notation pop := (pop X n').

(** Independent proposals whose log-density is given up to a constant. *)
Lemma indep_step (m : prog pop) (mu : 'I_n -> X -> R) (g : 'I_n -> X -> R) (ld : pop -> 'I_n -> R) c :
  samples_indep m mu -> c != 0 ->
  (forall x i, exp (ld x i) = c * mu i (x i)) ->
  exists S : pop -> R, forall b F,
    \sum_x exp (g b x) * E m (fun xt => F (upd xt b x))
    = \sum_xt S xt * exp (g b (xt b) - ld xt b) * F xt.
Proof.
move=> [_ pmu Em] c0 hl; exists (fun xt => c * \prod_i mu i (xt i)) => b F.
under eq_bigr do rewrite Em.
rewrite (sum_upd_all (fun x => exp (g b x)) F (proj2 (pmu b))).
apply: eq_bigr => xt _; congr (_ * _).
have mu0 : mu b (xt b) != 0.
  by apply: contraTneq (expR_gt0 (ld xt b)) => e; rewrite hl e mulr0 ltxx.
rewrite expRB hl [in RHS](bigD1 b) //=.
move: (\prod_(i | i != b) _) (exp _) (mu b (xt b)) mu0 => p e m0 mu0.
toR; field; split; by apply/eqP.
Qed.

Lemma proper_draw k (B : finType) (p : B -> R) : prob_vec p -> proper (draw k p).
Proof. by case. Qed.

Lemma prod_prob (I Y : finType) (p : I -> Y -> R) :
  (forall i, prob_vec (p i)) -> prob_vec (fun f : {ffun I -> Y} => \prod_i p i (f i)).
Proof.
move=> pp; split=> [f|]; first by apply: prodr_ge0 => i _; apply: (proj1 (pp i)).
rewrite -(bigA_distr_bigA (fun i j => p i j)) big1 // => i _; exact: (proj2 (pp i)).
Qed.

Lemma cat_prob n0 (w : 'I_n0 -> R) : prob_vec w -> prob_vec (cat_law w).
Proof.
move=> pw; split=> [i|]; first by rewrite cat_law_prob //; apply: (proj1 pw).
by under eq_bigr do rewrite cat_law_prob //; exact: (proj2 pw).
Qed.

Lemma multinomial_good n0 : good_resampler (@multinomial n0).
Proof.
move=> key w pw; split.
  by exists (fun A => \prod_l w (A l)); exact: multinomial_compat.
move=> i j; apply: proper_bind => //; apply: proper_draw.
by apply: (@prod_prob _ _ (fun _ => cat_law w)) => l; exact: cat_prob.
Qed.

Lemma killing_good : good_resampler (@killing n').
Proof.
move=> key w pw; split.
  by exists (rotated_killing_law w); exact: killing_compat.
move=> i j; apply: proper_bind => [|idx].
  apply: proper_bind => [|e].
    apply: proper_draw; apply: (@prod_prob _ _ (fun l (b : bool) =>
      if b then 1 - prob_lt (amax w) (w l) else prob_lt (amax w) (w l))) => l.
    have /andP [p0 p1] := prob_lt_01 (amax w) (w l).
    by split=> [[]|]; rewrite ?subr_ge0 // big_bool /= subrK.
  apply: proper_bind => [|r] //; apply: proper_draw.
  by apply: (@prod_prob _ _ (fun _ => cat_law w)) => l; exact: cat_prob.
by apply: proper_bind => // ; apply/proper_draw/cat_prob/J_prob_prob.
Qed.

Lemma barker_good n0 : good_mover (@barker_move n0).
Proof.
move=> key w pw f; rewrite -[RHS](barker_invariant pw key).
by apply: eq_bigr => k _; rewrite E_index_of.
Qed.

Lemma force_error key (w : 'I_n -> R) (g : 'I_n -> R) c : prob_vec w -> (forall k, `|g k| <= c) ->
  `|\sum_k w k * E (force_move key w k) (fun r => g r.1) - \sum_k w k * g k|
  <= 4%:R * c * Num.min (exp (- n%:R)) (1 / IZR 1000000000000).
Proof. exact: force_bound_spec. Qed.

End Sufficient.
