(** * NanRwProofs: rw_csmc.py on targets with zeros (C87).  Given the auxiliary
    variables, its sweep has the law of the kernel of csmc.py. *)
From Coq Require Import Reals Lra FunctionalExtensionality.
From mathcomp Require Import all_ssreflect all_algebra.
From Verif Require Import RInst Prog ProgTheory Resampling Spec ResamplingProofs Csmc CsmcInvariance AuxCsmc SweepTheory AuxProofs.
From Verif Require Import NanCsmc NanSpec NanNumbers NanProofs NanFinal NanRw.

Set Implicit Arguments.
Unset Strict Implicit.
Unset Printing Implicit Defensive.
Import GRing.Theory Num.Theory Order.TTheory.
Local Open Scope ring_scope.

(** ** Adding a constant to log-weights *)
Section Shift.
Variable n' : nat.
Local Notation n := n'.+1.
Implicit Types l g : 'I_n -> xnum.

Definition sh l (c : R) : 'I_n -> xnum := fun i => xadd (l i) (Fin c).

Lemma xsub_sh (a m : xnum) (c : R) : xsub (xadd a (Fin c)) (xadd m (Fin c)) = xsub a m.
Proof. by case: a => [x|||]; case: m => [y|||] //=; congr Fin; Rring. Qed.

Lemma amax_sh g c : xamax (sh g c) = xadd (xamax g) (Fin c).
Proof.
rewrite /xamax /sh; elim: (index_enum _) => [|j s IH]; first by rewrite !big_nil.
rewrite !big_cons IH; case: (g j) => [x|||]; case: (bigop _ _ _) => [y|||] //=; congr Fin.
by rewrite addr_maxl.
Qed.

Lemma minus_sh g c : (fun i => xsub (sh g c i) (xamax (sh g c))) = (fun i => xsub (g i) (xamax g)).
Proof. by apply: functional_extensionality => i; rewrite amax_sh xsub_sh. Qed.

Lemma usable_sh l c : usable (sh l c) = usable l.
Proof.
by congr (_ && _); [apply: eq_forallb|apply: eq_existsb] => i; rewrite /sh; case: (l i).
Qed.

Lemma dens_sh l c i : usable l -> dens (sh l c i) = exp c * dens (l i).
Proof.
by move=> /andP [/forallP /(_ i)]; rewrite /sh; case: (l i) => //= [r|] _; rewrite ?mulr0 // expRD mulrC.
Qed.

Lemma wsum_sh l c : usable l -> wsum (sh l c) = exp c * wsum l.
Proof. by move=> u; rewrite /wsum mulr_sumr; apply: eq_bigr => i _; rewrite dens_sh. Qed.

Lemma wnorm_sh l c : wnorm (sh l c) = wnorm l.
Proof.
apply: functional_extensionality => i; rewrite /wnorm usable_sh; case: ifP => // u.
rewrite dens_sh // wsum_sh //; have := wsum_gt0 u; have := expR_gt0 c.
by move: (exp c) (dens _) (wsum l) => a b d /lt0r_neq0 a0 /lt0r_neq0 d0; rewrite -mulf_div divff // mul1r.
Qed.

Lemma finite_sh l c : finite_weights (xnormalize (sh l c)) = finite_weights (xnormalize l).
Proof. by rewrite !finite_normalize usable_sh wnorm_sh. Qed.

Lemma norm_log_sh l c : usable l -> xnormalize_log (sh l c) = xnormalize_log l.
Proof.
move=> u; apply: functional_extensionality => i; rewrite !norm_usable ?usable_sh // wsum_sh //.
rewrite /sh; case/andP: (u) => [/forallP /(_ i) + _]; case: (l i) => //= r _; congr Fin.
rewrite ln_mult; [|by apply/RltE; exact: expR_gt0|by apply/RltE; exact: wsum_gt0].
by rewrite ln_exp; move: (ln _) => a; Rring.
Qed.

Lemma low_cases g : (forall i, low (g i)) -> usable g \/ forall i, g i = NInf.
Proof.
move=> lo; case: (boolP [exists i, fin (g i)]) => [e|/existsPn nf].
  by left; apply/andP; split=> //; apply/forallP.
by right=> i; have := lo i; have := nf i; case: (g i).
Qed.

Lemma lse_ninf g : (forall i, g i = NInf) -> xlogsumexp g = NInf.
Proof.
move=> e; rewrite /xlogsumexp (eq_bigr (fun _ => Fin 0)) => [|i _]; last by rewrite e.
rewrite (_ : \big[xadd/Fin 0]_(i < n) Fin 0 = Fin 0) /= ?ltxx ?eqxx //.
by elim: (index_enum _) => [|j s IH]; rewrite ?big_nil // big_cons IH /= addr0.
Qed.

(** [log_w0] as rw_csmc.py and as csmc.py keep it. *)
Lemma minus_max_sh g : (forall i, low (g i)) -> exists c, xnormalize_log g = sh (xminus_max g) c.
Proof.
move=> lo; case: (low_cases lo) => [u|ni].
  have : fin (xamax g) by apply: amax_low => //; move/andP: u => [_ /existsP].
  case em: (xamax g) => [m|||] // _; exists (m - ln (wsum g)).
  apply: functional_extensionality => i; rewrite norm_usable // /sh /xminus_max em.
  by have := lo i; case: (g i) => //= r _; congr Fin; Rring.
exists 0; apply: functional_extensionality => i.
by rewrite /xnormalize_log lse_ninf // /sh /xminus_max amax_ninf // ni.
Qed.

Lemma norm_minus_max g : (forall i, low (g i)) -> xnormalize_log (xminus_max g) = xnormalize_log g.
Proof.
move=> lo; case: (low_cases lo) => [u|ni].
  have : fin (xamax g) by apply: amax_low => //; move/andP: u => [_ /existsP].
  case em: (xamax g) => [m|||] // _.
  rewrite -(norm_log_sh (- m) u); congr xnormalize_log.
  by apply: functional_extensionality => i; rewrite /xminus_max em /sh.
by apply: functional_extensionality => i; rewrite /xnormalize_log /xminus_max amax_ninf // !ni (lse_ninf ni).
Qed.
End Shift.

Section Rw.
Variables (X : finZmodType) (n' : nat) (Q setting : Type).
Local Notation n := n'.+1.
Local Notation pop := (pop X n').
Local Notation anc := (anc n').
Local Notation lwts := (xlwts n').
Variables (noise : setting -> X -> R) (rs : resampler n) (mv : mover n).
Variables (L0 : X -> xnum) (Lt : X -> X -> Q -> xnum).
Variables (G0 : X -> R) (Gt : X -> X -> Q -> R).
Hypotheses (noiseP : forall s, prob_vec (noise s)) (noise_even : forall s z, noise s (- z) = noise s z).
Hypothesis noise_pos : forall s z, 0 < noise s z.
Hypotheses (L0_log : forall x, log_of (L0 x) (G0 x)) (Lt_log : forall x y q, log_of (Lt x y q) (Gt x y q)).
Hypothesis rs_good : good_resampler rs.

(** ** The model of csmc.py given the auxiliary variables *)
Definition given_model (s0 : setting) (u0 : X) : xmodel X n' (setting * X) (setting * X * Q) :=
  @XModel X n' (setting * X) (setting * X * Q)
    (fun k => do e <- draw k (iid (noise s0)); Ret [ffun i : 'I_n => u0 + (e : pop) i])
    (fun x i => Fin (ln (noise s0 (x i - u0))))
    (fun x => xadd (L0 x) (Fin (ln (noise s0 (u0 - x)))))
    (fun k _ p => do e <- draw k (iid (noise p.1)); Ret [ffun i : 'I_n => p.2 + (e : pop) i])
    (fun _ xt p i => Fin (ln (noise p.1 (xt i - p.2))))
    (fun x y r => xadd (Lt x y r.2) (Fin (ln (noise r.1.1 (r.1.2 - y))))).

Definition Gu0 (s0 : setting) (u0 x : X) : R := G0 x * noise s0 (u0 - x).
Definition Gut (x y : X) (r : setting * X * Q) : R := Gt x y r.2 * noise r.1.1 (r.1.2 - y).

Lemma exp_ln_noise s z : exp (ln (noise s z)) = noise s z.
Proof. by rewrite exp_ln //; apply/RltE. Qed.

Lemma log_add a y s z : log_of a y -> log_of (xadd a (Fin (ln (noise s z)))) (y * noise s z).
Proof. by case: a => //= [r <-|->]; rewrite ?mul0r // expRD exp_ln_noise. Qed.

Lemma shifted_indep k s u :
  samples_indep (do e <- draw k (iid (noise s)); Ret [ffun i : 'I_n => u + (e : pop) i])
    (fun _ x => noise s (x - u)).
Proof.
split.
- by apply: proper_bind => //; have [i0 i1] := @iid_prob X n' _ (noiseP s); split.
- by move=> i; split=> [x|]; [exact: (proj1 (noiseP s)) | exact: shift_prob].
- by move=> f; rewrite E_bind E_draw -(sum_iid_shift _ _ f).
Qed.

Lemma given_ok s0 u0 : markov_zeros (given_model s0 u0) (fun x => noise s0 (x - u0))
  (fun _ p y => noise p.1 (y - p.2)) (Gu0 s0 u0) Gut.
Proof.
split=> /=.
- split=> //.
  + by move=> key; exact: shifted_indep.
  + by move=> x i /=; exact: exp_ln_noise.
  + by move=> x; exact: log_add.
  + by move=> x _; exact: lt0r_neq0.
- by move=> key xm p; exact: shifted_indep.
- by move=> xm xt p i /=; exact: exp_ln_noise.
- by move=> x y q; exact: log_add.
- by move=> x y p q _; exact: lt0r_neq0.
Qed.

(** The resampling keys of csmc.py and of rw_csmc.py. *)
Definition rs_keys (key : key) : resampler n := fun k => rs (split key (nth 0%N k (size key).+1).+3).

Lemma rs_keys_good key : good_resampler (rs_keys key).
Proof. by move=> k; exact: rs_good. Qed.

Lemma rs_keysE key c : rs_keys key (split (split (split key 1) c) 1) = rs (split key c.+3).
Proof.
by rewrite /rs_keys /split !nth_rcons !size_rcons ltnS leqnn ltnn eqxx.
Qed.

Lemma xsub_add a (r : R) : xsub (xadd a (Fin r)) (Fin r) = a.
Proof. by case: a => //= x; congr Fin; Rring. Qed.

Lemma noise_sym s x u : noise s (u - x) = noise s (x - u).
Proof. by rewrite -noise_even opprB. Qed.

Lemma given_lw0 s0 u0 x : xlog_w0 (given_model s0 u0) x = xnormalize_log (fun i => L0 (x i)).
Proof.
rewrite /xlog_w0 /=; congr xnormalize_log; apply: functional_extensionality => i.
by rewrite noise_sym xsub_add.
Qed.

Lemma given_lwt s0 u0 xm xt s u q :
  xlog_wt (given_model s0 u0) xm xt (s, u) (s, u, q) = xnormalize_log (fun i => Lt (xm i) (xt i) q).
Proof.
rewrite /xlog_wt /=; congr xnormalize_log; apply: functional_extensionality => i.
by rewrite noise_sym xsub_add.
Qed.

(** ** Forward: all particles drawn first, or each generation when it is needed *)
Lemma fwd_eq s0 u0 key qs ss us bs xs b k c F :
  size ss = size qs -> size us = size qs -> size bs = size qs -> size xs = size qs ->
  lsum [seq iid (noise s) | s <- ss] (fun ps =>
    E (oscan (xrw_body rs Lt) c (sinputs qs (mk_pops us ps bs xs) b bs key k.+3)) F)
  = E (oscan (xfwd_body (rs_keys key) (given_model s0 u0) true) c
        (xinputs (zip ss us) (zip (zip ss us) qs) b bs (split key 1) k xs)) F.
Proof.
elim: qs ss us bs xs b k c F => [|q qs IH] [|s ss] [|u us] [|b' bs] [|x xs] b k [w xm] F //= [s1] [s2] [s3] [s4].
rewrite E_obind E_obind E_on_weights rs_keysE.
transitivity (\sum_(p : pop) iid (noise s) p * (if finite_weights w is Some v then
   E (rs (split key k.+3) v b b' true) (fun A => lsum [seq iid (noise s) | s <- ss] (fun ps =>
     E (oscan (xrw_body rs Lt) (fun l => xexp (xnormalize_log (fun l0 => Lt (take_ax xm A l0) (mk_pop u p b' x l0) q) l), mk_pop u p b' x)
          (sinputs qs (mk_pops us ps bs xs) b' bs key k.+4))
       (fun o => F (omap (fun co => (co.1, (xnormalize_log (fun l0 => Lt (take_ax xm A l0) (mk_pop u p b' x l0) q), A, mk_pop u p b' x) :: co.2)) o))))
   else F None)).
  apply: eq_bigr => p _; congr (_ * _).
  have e ps : E (oscan (xrw_body rs Lt) (w, xm) (SInp q (mk_pop u p b' x) b b' (split key k.+3)
       :: sinputs qs (mk_pops us ps bs xs) b' bs key k.+4)) F
   = if finite_weights w is Some v then
   E (rs (split key k.+3) v b b' true) (fun A => 
     E (oscan (xrw_body rs Lt) (fun l => xexp (xnormalize_log (fun l0 => Lt (take_ax xm A l0) (mk_pop u p b' x l0) q) l), mk_pop u p b' x)
          (sinputs qs (mk_pops us ps bs xs) b' bs key k.+4))
       (fun o => F (omap (fun co => (co.1, (xnormalize_log (fun l0 => Lt (take_ax xm A l0) (mk_pop u p b' x l0) q), A, mk_pop u p b' x) :: co.2)) o)))
   else F None.
    cbn [oscan xrw_body s_key s_bm1 s_b s_x s_p]; rewrite E_obind E_obind E_on_weights; case: (finite_weights w) => [v|] //.
    by apply: eq_E => A; cbn [E]; rewrite E_obind; apply: eq_E => -[[c1 o1]|].
  apply: etrans; first by apply: eq_lsum => ps; exact: (e ps).
  case: (finite_weights w) => [v|]; first by rewrite lsum_E.
  rewrite lsum_const // => nu /List.in_map_iff [s' [<- _]]; exact: iid_prob.
case: (finite_weights w) => [v|]; last first.
  by rewrite -mulr_suml (proj2 (@iid_prob X n' _ (noiseP s))) mul1r.
rewrite E_sumE; apply: eq_E => A; cbn [E]; apply: eq_bigr => p _; congr (_ * _).
cbn [E]; rewrite given_lwt -/(mk_pop u p b' x) IH // E_obind; apply: eq_E => -[[c1 o1]|] //.
Qed.

(** ** Backward *)
Definition shifted (l l' : lwts) : Prop := exists c, l' = sh l c.

Lemma shifted_refl l : shifted l l.
Proof.
exists 0; apply: functional_extensionality => i; rewrite /sh; by case: (l i) => //= r; rewrite addr0.
Qed.

Fixpoint grel (gs gs' : seq (lwts * pop)) : Prop :=
  match gs, gs' with
  | [::], [::] => True
  | g :: a, g' :: b => [/\ shifted g.1 g'.1, g.2 = g'.2 & grel a b]
  | _, _ => False
  end.

Lemma grel_refl gs : grel gs gs.
Proof. by elim: gs => //= g gs IH; split=> //; exact: shifted_refl. Qed.

Lemma grel_rcons gs gs' g g' : grel gs gs' -> shifted g.1 g'.1 -> g.2 = g'.2 -> grel (rcons gs g) (rcons gs' g').
Proof.
elim: gs gs' => [|h gs IH] [|h' gs'] //=.
by move=> [h1 h2 h3] s e; split=> //; exact: IH.
Qed.

Lemma bw_shifted s0 u0 x xm l l' r : shifted l l' ->
  finite_weights (xbwd_weights Lt x xm l r.2)
  = finite_weights (xbwd_weights (xGammat (given_model s0 u0)) x xm l' r).
Proof.
move=> [c ->]; rewrite /xbwd_weights /=.
have := minus_sh (fun i => Lt (xm i) x r.2) (ln (noise r.1.1 (r.1.2 - x))).
rewrite /sh => e; rewrite -[LHS](finite_sh _ c); congr (finite_weights (xnormalize _)).
apply: functional_extensionality => i; rewrite /sh.
have := congr1 (fun h => h i) e; rewrite /= => ->.
move: (xsub _ _) => a; case: a => [a|||]; case: (l i) => [b|||] //=; congr Fin; by Rring.
Qed.

Lemma bscan_eq s0 u0 key c gs gs' rs' x F : grel gs gs' ->
  E (oscan (xbwd_body Lt) x (xbwd_inputs key c gs [seq r.2 | r <- rs'])) F
  = E (oscan (xbwd_body (xGammat (given_model s0 u0))) x (xbwd_inputs key c gs' rs')) F.
Proof.
elim: gs gs' rs' c x F => [|[l p] gs IH] [|[l' p'] gs'] [|r rs'] c x F //= [sl /= <- gr].
rewrite !E_obind !E_on_weights (bw_shifted s0 u0 x p r sl).
case: (finite_weights _) => [v|] //; apply: eq_E => B; cbn [E].
by rewrite !E_obind (IH gs' rs').
Qed.

Lemma back_eq s0 u0 key rs' b l l' y outs (backward : bool) F : shifted l l' ->
  E (if backward then xbackward_sampling_pass mv Lt key [seq r.2 | r <- rs'] b (l, y, outs) true
     else xbackward_scanning_pass mv key b (l, y, outs)) F
  = E (if backward then xbackward_sampling_pass mv (xGammat (given_model s0 u0)) key rs' b (l', y, outs) true
     else xbackward_scanning_pass mv key b (l', y, outs)) F.
Proof.
move=> sl.
have gr : grel (behead (rev (xgens (l, y, outs)))) (behead (rev (xgens (l', y, outs)))).
  rewrite /xgens !rev_cons; case: (rev _) => [|g gs] //=.
  by apply: grel_rcons => //; exact: grel_refl.
have pops : behead (rev (unzip2 (xgens (l, y, outs)))) = behead (rev (unzip2 (xgens (l', y, outs)))) by [].
have [e1 e2] : finite_weights (xnormalize (xlast_gen (l, y, outs)).1) = finite_weights (xnormalize (xlast_gen (l', y, outs)).1)
   /\ (xlast_gen (l, y, outs)).2 = (xlast_gen (l', y, outs)).2.
  by case: outs {gr pops} => [|o outs] //=; split=> //; have [c ->] := sl; rewrite finite_sh.
case: backward.
- rewrite /xbackward_sampling_pass; move: e1 e2 gr.
  case: (xlast_gen (l, y, outs)) => lT xT; case: (xlast_gen (l', y, outs)) => lT' xT' /= e1 <- gr.
  rewrite !E_obind !E_on_weights e1; case: (finite_weights _) => [v|] //.
  apply: eq_E => -[B a]; rewrite !E_obind; rewrite -map_rev; exact: bscan_eq.
- rewrite /xbackward_scanning_pass; move: e1 e2.
  case: (xlast_gen (l, y, outs)) => lT xT; case: (xlast_gen (l', y, outs)) => lT' xT' /= e1 <-.
  by rewrite !E_obind !E_on_weights e1; case: (finite_weights _) => [v|].
Qed.

(** ** The sweep given the auxiliary variables *)
Definition given (s0 : setting) ss qs backward (key : key) x0 xs b0 bs u0 us :=
  odrop (xkernel (rs_keys key) mv (given_model s0 u0) key x0 xs b0 bs (zip ss us) (zip (zip ss us) qs) backward true).

Lemma sweep_eq s0 ss qs backward key x0 xs b0 bs u0 us f :
  size ss = size qs -> size us = size qs -> size bs = size qs -> size xs = size qs ->
  \sum_p0 iid (noise s0) p0 * lsum [seq iid (noise s) | s <- ss] (fun ps =>
    E (odrop (xrw_sweep rs mv L0 Lt key b0 bs (mk_pop u0 p0 b0 x0) (mk_pops us ps bs xs) qs backward)) f)
  = E (given s0 ss qs backward key x0 xs b0 bs u0 us) f.
Proof.
move=> s1 s2 s3 s4; rewrite /given /odrop E_bind /xkernel E_obind /xforward_pass E_bind [in RHS]/=.
apply: eq_bigr => p0 _; congr (_ * _); cbn [E].
rewrite -/(mk_pop u0 p0 b0 x0); move: (mk_pop u0 p0 b0 x0) => y0.
rewrite given_lw0 E_obind.
have lo i : low (L0 (y0 i)) by have [] := log_dens (L0_log (y0 i)).
have [c ec] := minus_max_sh lo.
rewrite -(@fwd_eq s0 u0 key qs ss us bs xs b0 0%N) //.
apply: eq_lsum => ps; rewrite E_bind /xrw_sweep E_obind /xrw_forward E_obind /xnormalize norm_minus_max //.
apply: eq_E => -[[c' outs]|] //; cbn [E].
rewrite !E_obind ec.
have eq2 : qs = [seq r.2 | r <- zip (zip ss us) qs].
  by rewrite -/(unzip2 _) unzip2_zip // size_zip s1 s2 minnn.
rewrite [in LHS]eq2 (@back_eq s0 u0 _ _ _ _ (sh (xminus_max (fun i => L0 (y0 i))) c)); last by exists c.
by apply: eq_E => -[[xs' Bs]|].
Qed.

(** ** Summing over the auxiliary variables *)
Fixpoint rw_law (xs : seq X) (ss : seq setting) (us : seq X) : R :=
  match xs, ss, us with
  | x :: xs', s :: ss', u :: us' => noise s (u - x) * rw_law xs' ss' us'
  | _, _, _ => 1
  end.

Lemma lsum_rw xs ss m (G : seq X -> R) : size ss = m -> size xs = m ->
  lsum [seq noise s | s <- ss] (fun es => G (rw_aux xs es))
  = \sum_(us : m.-tuple X) rw_law xs ss us * G us.
Proof.
elim: m xs ss G => [|m IH] [|x xs] [|s ss] G //=.
  by move=> _ _; rewrite (sum_tuple0 (fun us => 1 * G us)) mul1r.
move=> [s1] [s2].
rewrite (@sum_tuple_cons X _ (fun us => (match us with u :: us' => noise s (u - x) * rw_law xs ss us' | [::] => 1 end) * G us)).
rewrite (eq_bigr (fun y => noise s y * (\sum_(us : m.-tuple X) rw_law xs ss us * G ((x + y) :: us)))); last first.
  by move=> y _; rewrite (IH xs ss (fun us => G ((x + y) :: us))).
rewrite (sum_shift _ _ (fun u => \sum_(us : m.-tuple X) rw_law xs ss us * G (u :: us))).
apply: eq_bigr => u _; rewrite mulr_sumr; apply: eq_bigr => us _.
by rewrite mulrA.
Qed.

Lemma rw_law_sum xs ss m : size ss = m -> size xs = m -> \sum_(us : m.-tuple X) rw_law xs ss us = 1.
Proof.
move=> s1 s2; have := lsum_rw (fun _ => 1) s1 s2; rewrite lsum_const => [H|nu].
  by rewrite [RHS]H; apply: eq_bigr => us _; rewrite mulr1.
by move=> /List.in_map_iff [s [<- _]].
Qed.

Lemma rw_aux_size (xs es : seq X) m : size es = m -> size xs = m -> size (rw_aux xs es) = m.
Proof. by elim: m xs es => [|m IH] [|x xs] [|e es] //= [a] [b]; rewrite IH. Qed.

Lemma rw_E key x0 xs b0 bs s0 ss qs backward f :
  size ss = size qs -> size bs = size qs -> size xs = size qs ->
  E (odrop (xrw_kernel noise rs mv L0 Lt xpredT key x0 xs b0 bs s0 ss qs backward)) f
  = \sum_u0 \sum_(us : (size qs).-tuple X) noise s0 (u0 - x0) * rw_law xs ss us
      * E (given s0 ss qs backward key x0 xs b0 bs u0 us) f.
Proof.
move=> s1 s3 s4; rewrite /odrop E_bind /xrw_kernel E_bind E_normals.
transitivity (\sum_e0 noise s0 e0 * lsum [seq noise s | s <- ss] (fun es =>
   E (given s0 ss qs backward key x0 xs b0 bs (x0 + e0) (rw_aux xs es)) f)).
  apply: eq_bigr => e0 _; congr (_ * _); apply: eq_lsum_size => es; rewrite size_map => se.
  have su : size (rw_aux xs es) = size qs by apply: rw_aux_size => //; rewrite se.
  rewrite -sweep_eq // E_bind E_normals; apply: eq_bigr => p0 _; congr (_ * _); apply: eq_lsum => ps.
  rewrite E_obind /odrop E_bind; apply: eq_E => -[[[xs' Bs] lws]|] //=.
  by rewrite /rw_guard all_predT.
rewrite (eq_bigr (fun e0 => noise s0 e0 * (\sum_(us : (size qs).-tuple X) rw_law xs ss us *
     E (given s0 ss qs backward key x0 xs b0 bs (x0 + e0) us) f))); last first.
  by move=> e0 _; rewrite (lsum_rw (fun us => E (given s0 ss qs backward key x0 xs b0 bs (x0 + e0) us) f) s1 s4).
rewrite (sum_shift _ _ (fun u0 => \sum_(us : (size qs).-tuple X) rw_law xs ss us *
     E (given s0 ss qs backward key x0 xs b0 bs u0 us) f)).
by apply: eq_bigr => u0 _; rewrite mulr_sumr; apply: eq_bigr => us _; rewrite mulrA.
Qed.

Lemma given_target s0 ss qs u0 us x0 xs : size ss = size qs -> size us = size qs -> size xs = size qs ->
  pot_target (Gu0 s0 u0) Gut (zip (zip ss us) qs) x0 xs
  = pot_target G0 Gt qs x0 xs * (noise s0 (u0 - x0) * rw_law xs ss us).
Proof.
move=> s1 s2 s3; rewrite /pot_target.
have -> : pot_path Gut x0 xs (zip (zip ss us) qs) = pot_path Gt x0 xs qs * rw_law xs ss us.
  elim: qs ss us xs x0 s1 s2 s3 => [|q qs IH] [|s ss] [|u us] [|x xs] x0 //=; first by rewrite mul1r.
  by move=> [s1] [s2] [s3]; rewrite IH // /Gut /=; move: (Gt _ _ _) (noise _ _) (pot_path _ _ _ _) (rw_law _ _ _) => a b c d; Rring.
rewrite /Gu0; move: (G0 _) (noise _ _) (pot_path _ _ _ _) (rw_law _ _ _) => a b c d; by Rring.
Qed.

Lemma zip_size ss us qs : size ss = size qs -> size us = size qs ->
  size (zip ss us : seq (setting * X)) = size (zip (zip ss us) qs : seq (setting * X * Q)) /\
  size (zip (zip ss us) qs : seq (setting * X * Q)) = size qs.
Proof. by move=> s1 s2; rewrite !size_zip s1 s2 !minnn. Qed.

Theorem rw_invariant key s0 ss qs backward : good_mover mv -> size ss = size qs ->
  leaves_invariant_result (size qs) (pot_target G0 Gt qs)
    (fun x0 xs b0 bs => odrop (xrw_kernel noise rs mv L0 Lt xpredT key x0 xs b0 bs s0 ss qs backward)).
Proof.
move=> mg s1 f.
pose T u0 us := pot_target (Gu0 s0 u0) Gut (zip (zip ss us) qs).
transitivity (\sum_u0 \sum_(us : (size qs).-tuple X) traj_sum (size qs) (fun x0 xs b0 bs =>
   T u0 us x0 xs * E (given s0 ss qs backward key x0 xs b0 bs u0 us) f)).
  under [RHS]eq_bigr do rewrite -traj_sum_exchange.
  rewrite -traj_sum_exchange.
  apply: eq_bigr => x0 _; apply: eq_bigr => b0 _; apply: eq_bigr => xs _; apply: eq_bigr => bs _.
  rewrite rw_E ?size_tuple // mulr_sumr; apply: eq_bigr => u0 _; rewrite mulr_sumr.
  by apply: eq_bigr => us _; rewrite /T given_target ?size_tuple // mulrA.
transitivity (\sum_u0 \sum_(us : (size qs).-tuple X) traj_sum (size qs) (fun x0 xs b0 bs =>
   T u0 us x0 xs * f (Some (x0 :: xs, b0 :: bs)))).
  apply: eq_bigr => u0 _; apply: eq_bigr => us _.
  have [z1 z2] := zip_size s1 (size_tuple us).
  have := nan_invariant (given_ok s0 u0) (rs_keys_good key) key backward mg z1 f.
  by rewrite z2.
under eq_bigr do rewrite -traj_sum_exchange.
rewrite -traj_sum_exchange.
apply: eq_bigr => x0 _; apply: eq_bigr => b0 _; apply: eq_bigr => xs _; apply: eq_bigr => bs _.
transitivity (\sum_u0 \sum_(us : (size qs).-tuple X) pot_target G0 Gt qs x0 xs * f (Some (x0 :: tval xs, b0 :: tval bs)) *
     (noise s0 (u0 - x0) * rw_law xs ss us)).
  apply: eq_bigr => u0 _; apply: eq_bigr => us _.
  by rewrite /T given_target ?size_tuple // mulrAC.
rewrite -[RHS]mulr1 -[X in _ = _ * X](shift_prob noiseP s0 x0) mulr_sumr; apply: eq_bigr => u0 _.
by rewrite -mulr_sumr; congr (_ * _); rewrite -mulr_sumr rw_law_sum ?size_tuple ?mulr1.
Qed.

Lemma rw_null key s0 ss qs backward x0 xs b0 bs (f : option (seq X * seq 'I_n) -> R) :
  good_mover mv -> proper_mover mv -> size ss = size qs -> size bs = size qs -> size xs = size qs ->
  (forall y0 ys c0 cs, size ys = size qs -> size cs = size qs ->
     pot_target G0 Gt qs y0 ys * f (Some (y0 :: ys, c0 :: cs)) = 0) ->
  0 < pot_target G0 Gt qs x0 xs ->
  E (odrop (xrw_kernel noise rs mv L0 Lt xpredT key x0 xs b0 bs s0 ss qs backward)) f = 0.
Proof.
move=> mg mp s1 s2 s3 nul pos; rewrite rw_E //.
rewrite big1 // => u0 _; rewrite big1 // => us _.
have [z1 z2] := zip_size s1 (size_tuple us).
rewrite /given (nan_null_any (given_ok s0 u0) (rs_keys_good key)) ?mulr0 // ?z2 //.
  by move=> y0 ys c0 cs s4 s5; rewrite given_target ?size_tuple // mulrAC nul // mul0r.
rewrite given_target ?size_tuple //; apply: mulr_gt0 => //; apply: mulr_gt0 => //.
elim: (xs) (ss) (tval us) => [|x l IH] [|s ss'] [|u us'] //=; rewrite ?ltr01 //.
by apply: mulr_gt0.
Qed.

Lemma rw_has_result key s0 ss qs backward x0 xs b0 bs :
  good_mover mv -> proper_mover mv -> size ss = size qs -> size xs = size qs -> size bs = size qs ->
  0 < pot_target G0 Gt qs x0 xs ->
  Pr (odrop (xrw_kernel noise rs mv L0 Lt xpredT key x0 xs b0 bs s0 ss qs backward))
     (fun o => if o is Some (y0 :: ys, _) then pot_target G0 Gt qs y0 ys == 0 else true) = 0.
Proof.
move=> mg mp s1 s2 s3 pos; apply: rw_null pos => // y0 ys c0 cs _ _ /=.
by case: eqP => [->|_]; rewrite ?mul0r ?mulr0.
Qed.

Lemma rw_pot_ge0 qs x0 (xs : seq X) : 0 <= pot_target G0 Gt qs x0 xs.
Proof.
rewrite /pot_target; apply: mulr_ge0; first exact: log_ge0 (L0_log x0).
elim: qs x0 xs => [|q qs IH] x0 [|x xs] /=; try exact: ler01.
by apply: mulr_ge0; [exact: log_ge0 (Lt_log x0 x q) | exact: IH].
Qed.

Lemma rw_runs_result s0 ss qs backward keys x0 xs b0 bs :
  good_mover mv -> proper_mover mv -> size ss = size qs -> size xs = size qs -> size bs = size qs ->
  0 < pot_target G0 Gt qs x0 xs ->
  Pr (xrw_runs noise rs mv L0 Lt s0 ss qs backward keys (x0 :: xs, b0 :: bs)) (fun o => ~~ isSome o) = 0.
Proof.
move=> mg mp s1; elim: keys x0 xs b0 bs => [|k ks IH] x0 xs b0 bs s2 s3 pos //.
rewrite /Pr [xrw_runs _ _ _ _ _ _ _ _ _ _ _]/= E_obind.
pose h o : R := if o is Some s then E (xrw_runs noise rs mv L0 Lt s0 ss qs backward ks s) (fun o => (~~ isSome o)%:R) else 1.
have := @rw_null k s0 ss qs backward x0 xs b0 bs h mg mp s1 s3 s2.
rewrite /odrop E_bind => <- //.
  by apply: eq_E => -[r|].
move=> y0 ys c0 cs s4 s5.
have := rw_pot_ge0 qs y0 ys; rewrite le_eqVlt => /orP [/eqP <-|p]; first by rewrite mul0r.
by have := IH y0 ys c0 cs s4 s5 p; rewrite /Pr => H; rewrite /h H mulr0.
Qed.

End Rw.
