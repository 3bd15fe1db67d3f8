(** * NanAlProofs: al_csmc_f.py on targets with zeros (C91).  Given the auxiliary
    variables, its sweep has the law of the kernel of csmc.py. *)
From Coq Require Import Reals Lra FunctionalExtensionality.
From mathcomp Require Import all_ssreflect all_algebra.
From Verif Require Import RInst Prog ProgTheory Resampling Spec ResamplingProofs Csmc CsmcInvariance AuxCsmc SweepTheory AuxProofs.
From Verif Require Import NanCsmc NanSpec NanNumbers NanProofs NanFinal NanRw NanRwProofs NanAl.

Set Implicit Arguments.
Unset Strict Implicit.
Unset Printing Implicit Defensive.
Import GRing.Theory Num.Theory Order.TTheory.
Local Open Scope ring_scope.

Section Al.
Variables (X : finZmodType) (n' : nat) (Q setting : Type).
Local Notation n := n'.+1.
Local Notation pop := (pop X n').
Local Notation anc := (anc n').
Local Notation lwts := (xlwts n').
Variables (noise ld : setting -> X -> R) (scale : setting -> X -> X) (rs : resampler n) (mv : mover n).
Variables (L0 : X -> xnum) (Lt : X -> X -> Q -> xnum).
Variables (G0 : X -> R) (Gt : X -> X -> Q -> R).
Variables (g0 : X -> X) (gt : X -> X -> Q -> X) (cn : setting -> R).
Hypotheses (noiseP : forall s, prob_vec (noise s)) (noise_pos : forall s z, 0 < noise s z).
Hypothesis ldE : forall s z, exp (ld s z) = cn s * noise s z.
Hypotheses (L0_log : forall x, log_of (L0 x) (G0 x)) (Lt_log : forall x y q, log_of (Lt x y q) (Gt x y q)).
Hypothesis rs_good : good_resampler rs.
Local Notation so0 := (fun x => Some (g0 x)).
Local Notation sot := (fun x y q => Some (gt x y q)).
Local Notation W0 := (@xal_G_0_tilde X n' setting ld scale L0 so0).
Local Notation Wt := (@xal_G_t_tilde X n' Q setting ld scale Lt sot).
Local Notation Gat := (xal_Gamma_t_tilde ld scale Lt sot).
Local Notation body := (xal_body ld scale rs Lt sot).

Lemma cn_gt0 s : 0 < cn s.
Proof.
have := expR_gt0 (ld s 0); rewrite ldE; have := noise_pos s 0.
by move: (cn s) (noise s 0) => a b b0; rewrite pmulr_lgt0.
Qed.

Lemma ld_ln s z : ld s z = ln (noise s z) + ln (cn s).
Proof.
rewrite -[LHS]ln_exp ldE ln_mult; [by rewrite addrC|apply/RltE; exact: cn_gt0|exact/RltE].
Qed.

(** ** The model of csmc.py given the auxiliary variables *)
Definition al_given_model (s0 : setting) (u0 : X) : xmodel X n' (setting * X) (setting * X * Q) :=
  @XModel X n' (setting * X) (setting * X * Q)
    (fun k => do e <- draw k (iid (noise s0)); Ret [ffun i : 'I_n => u0 + (e : pop) i])
    (fun x i => Fin (ln (noise s0 (x i - u0))))
    (fun x => xadd (L0 x) (Fin (ln (noise s0 (u0 - x - scale s0 (g0 x))))))
    (fun k _ p => do e <- draw k (iid (noise p.1)); Ret [ffun i : 'I_n => p.2 + (e : pop) i])
    (fun _ xt p i => Fin (ln (noise p.1 (xt i - p.2))))
    (fun x y r => xadd (Lt x y r.2) (Fin (ln (noise r.1.1 (r.1.2 - y - scale r.1.1 (gt x y r.2)))))).

Definition Ga0 (s0 : setting) (u0 x : X) : R := G0 x * noise s0 (u0 - x - scale s0 (g0 x)).
Definition Gatt (x y : X) (r : setting * X * Q) : R :=
  Gt x y r.2 * noise r.1.1 (r.1.2 - y - scale r.1.1 (gt x y r.2)).

Lemma al_given_ok s0 u0 : markov_zeros (al_given_model s0 u0) (fun x => noise s0 (x - u0))
  (fun _ p y => noise p.1 (y - p.2)) (Ga0 s0 u0) Gatt.
Proof.
split=> /=.
- split=> //.
  + by move=> key; exact: shifted_indep.
  + by move=> x i /=; exact: exp_ln_noise.
  + by move=> x; exact: log_add.
  + by move=> x _; exact: lt0r_neq0.
- by move=> key xm p; exact: shifted_indep.
- by move=> xm xt p i /=; exact: exp_ln_noise.
- by move=> x y q; exact: log_add.
- by move=> x y p q _; exact: lt0r_neq0.
Qed.

Lemma xsub_shift a (p q c : R) : xsub (xadd a (Fin (p + c))) (Fin (q + c)) = xsub (xadd a (Fin p)) (Fin q).
Proof. by case: a => //= x; congr Fin; Rring. Qed.

Lemma al_lw0 s0 u0 x : xlog_w0 (al_given_model s0 u0) x = xnormalize_log (W0 s0 u0 x).
Proof.
rewrite /xlog_w0 /=; congr xnormalize_log; apply: functional_extensionality => i.
by rewrite /xal_G_0_tilde /xal_Gamma_0_tilde /= !ld_ln xsub_shift.
Qed.

Lemma al_lwt s0 u0 xm xt s u q :
  xlog_wt (al_given_model s0 u0) xm xt (s, u) (s, u, q) = xnormalize_log (Wt xm xt (s, u, q)).
Proof.
rewrite /xlog_wt /=; congr xnormalize_log; apply: functional_extensionality => i.
by rewrite /xal_G_t_tilde /xal_Gamma_t_tilde /= !ld_ln xsub_shift.
Qed.

Lemma low_W0 s0 u0 x i : low (W0 s0 u0 x i).
Proof.
rewrite /xal_G_0_tilde /xal_Gamma_0_tilde /=; have [] := log_dens (L0_log (x i)).
by case: (L0 (x i)).
Qed.

Lemma low_Wt xm xt s u q i : low (Wt xm xt (s, u, q) i).
Proof.
rewrite /xal_G_t_tilde /xal_Gamma_t_tilde /=; have [] := log_dens (Lt_log (xm i) (xt i) q).
by case: (Lt _ _ _).
Qed.

(** ** Forward *)
Fixpoint orel (os os' : seq (lwts * anc * pop)) : Prop :=
  match os, os' with
  | [::], [::] => True
  | o :: a, o' :: b => [/\ shifted o.1.1 o'.1.1, o.1.2 = o'.1.2, o.2 = o'.2 & orel a b]
  | _, _ => False
  end.

Definition frel (r r' : option ((('I_n -> xnum) * pop) * seq (lwts * anc * pop))) : Prop :=
  match r, r' with
  | Some (c, os), Some (c', os') => c = c' /\ orel os os'
  | None, None => True
  | _, _ => False
  end.

Lemma al_fwd_eq s0 u0 key qs ss us bs xs b k c F F' :
  (forall r r', frel r r' -> F r = F' r') ->
  size ss = size qs -> size us = size qs -> size bs = size qs -> size xs = size qs ->
  lsum [seq iid (noise s) | s <- ss] (fun ps =>
    E (oscan body c (sinputs (zip (zip ss us) qs) (mk_pops us ps bs xs) b bs key k.+3)) F)
  = E (oscan (xfwd_body (rs_keys rs key) (al_given_model s0 u0) true) c
        (xinputs (zip ss us) (zip (zip ss us) qs) b bs (split key 1) k xs)) F'.
Proof.
elim: qs ss us bs xs b k c F F' => [|q qs IH] [|s ss] [|u us] [|b' bs] [|x xs] b k [w xm] F F' FF //=.
  by move=> _ _ _ _; apply: FF.
move=> [s1] [s2] [s3] [s4].
rewrite E_obind E_obind E_on_weights rs_keysE.
pose lw A p := Wt (take_ax xm A) (mk_pop u p b' x) (s, u, q).
transitivity (\sum_(p : pop) iid (noise s) p * (if finite_weights w is Some v then
   E (rs (split key k.+3) v b b' true) (fun A => lsum [seq iid (noise s) | s <- ss] (fun ps =>
     E (oscan body (xnormalize (xminus_max (lw A p)), mk_pop u p b' x)
          (sinputs (zip (zip ss us) qs) (mk_pops us ps bs xs) b' bs key k.+4))
       (fun o => F (omap (fun co => (co.1, (xminus_max (lw A p), A, mk_pop u p b' x) :: co.2)) o))))
   else F None)).
  apply: eq_bigr => p _; congr (_ * _).
  have e ps : E (oscan body (w, xm) (SInp (s, u, q) (mk_pop u p b' x) b b' (split key k.+3)
       :: sinputs (zip (zip ss us) qs) (mk_pops us ps bs xs) b' bs key k.+4)) F
   = if finite_weights w is Some v then
   E (rs (split key k.+3) v b b' true) (fun A => 
     E (oscan body (xnormalize (xminus_max (lw A p)), mk_pop u p b' x)
          (sinputs (zip (zip ss us) qs) (mk_pops us ps bs xs) b' bs key k.+4))
       (fun o => F (omap (fun co => (co.1, (xminus_max (lw A p), A, mk_pop u p b' x) :: co.2)) o)))
   else F None.
    cbn [oscan xal_body s_key s_bm1 s_b s_x s_p]; rewrite E_obind E_obind E_on_weights; case: (finite_weights w) => [v|] //.
    by apply: eq_E => A; cbn [E]; rewrite E_obind; apply: eq_E => -[[c1 o1]|].
  apply: etrans; first by apply: eq_lsum => ps; exact: (e ps).
  case: (finite_weights w) => [v|]; first by rewrite lsum_E.
  rewrite lsum_const // => nu /List.in_map_iff [s' [<- _]]; exact: iid_prob.
case: (finite_weights w) => [v|]; last first.
  by rewrite -mulr_suml (proj2 (@iid_prob X n' _ (noiseP s))) mul1r; apply: FF.
rewrite E_sumE; apply: eq_E => A; cbn [E]; apply: eq_bigr => p _; congr (_ * _).
cbn [E]; rewrite al_lwt -/(mk_pop u p b' x) E_obind -/(lw A p).
have lo i : low (lw A p i) by exact: low_Wt.
have [cc ec] := minus_max_sh lo.
rewrite /xnormalize (norm_minus_max lo); apply: IH => // -[[c1 o1]|] [[c2 o2]|] //=.
- by move=> [<- oo]; apply: FF; split=> //=; split=> //; exists cc.
- by move=> _; apply: FF.
Qed.

(** ** Backward *)
Lemma al_bw_shifted s0 u0 x (xm : pop) (l l' : lwts) r : shifted l l' ->
  finite_weights (xbwd_weights Gat x xm l r)
  = finite_weights (xbwd_weights (xGammat (al_given_model s0 u0)) x xm l' r).
Proof.
move=> [c ->]; case: r => [[s u] q]; rewrite /xbwd_weights /=.
have e := minus_sh (fun i => xadd (Lt (xm i) x q) (Fin (ln (noise s (u - x - scale s (gt (xm i) x q)))))) (ln (cn s)).
rewrite -[LHS](finite_sh _ c); congr (finite_weights (xnormalize _)).
apply: functional_extensionality => i; rewrite /sh.
have := congr1 (fun h => h i) e; rewrite /sh /= => <-.
have eg : (fun l0 => xadd (Lt (xm l0) x q) (Fin (ld s (u - x - scale s (gt (xm l0) x q)))))
  = (fun i => xadd (xadd (Lt (xm i) x q) (Fin (ln (noise s (u - x - scale s (gt (xm i) x q)))))) (Fin (ln (cn s)))).
  apply: functional_extensionality => j; rewrite ld_ln; case: (Lt _ _ _) => //= y; by congr Fin; Rring.
have := congr1 (fun h => h i) eg; rewrite /= eg => ->.
move: (xsub _ _) => a; case: a => [a|||]; case: (l i) => [d|||] //=; congr Fin; by Rring.
Qed.

Lemma al_bscan_eq s0 u0 key c (gs gs' : seq (lwts * pop)) rs' x F : grel gs gs' ->
  E (oscan (xbwd_body Gat) x (xbwd_inputs key c gs rs')) F
  = E (oscan (xbwd_body (xGammat (al_given_model s0 u0))) x (xbwd_inputs key c gs' rs')) F.
Proof.
elim: gs gs' rs' c x F => [|[l p] gs IH] [|[l' p'] gs'] [|r rs'] c x F //= [sl /= <- gr].
rewrite !E_obind !E_on_weights (al_bw_shifted s0 u0 x p r sl).
case: (finite_weights _) => [v|] //; apply: eq_E => B; cbn [E].
by rewrite !E_obind (IH gs' rs').
Qed.

Lemma orel_gens os os' : orel os os' ->
  grel [seq (o.1.1, o.2) | o <- os] [seq (o.1.1, o.2) | o <- os'] /\
  [seq o.1.2 | o <- os] = [seq o.1.2 | o <- os'] /\ [seq o.2 | o <- os] = [seq o.2 | o <- os'].
Proof.
elim: os os' => [|o os IH] [|o' os'] //= [h1 h2 h3 /IH [e1 [e2 e3]]]; split; last by rewrite h2 h3 e2 e3.
by split.
Qed.

Lemma grel_rev (gs gs' : seq (lwts * pop)) : grel gs gs' -> grel (rev gs) (rev gs').
Proof.
elim: gs gs' => [|g gs IH] [|g' gs'] //= [h1 h2 h3]; rewrite !rev_cons; apply: grel_rcons => //; exact: IH.
Qed.

Lemma grel_last (g g' : lwts * pop) gs gs' : shifted g.1 g'.1 -> g.2 = g'.2 -> grel gs gs' ->
  shifted (last g gs).1 (last g' gs').1 /\ (last g gs).2 = (last g' gs').2.
Proof.
elim: gs gs' g g' => [|h gs IH] [|h' gs'] g g' //= a b [h1 h2 h3]; exact: IH.
Qed.

Lemma al_back_eq s0 u0 key rs' b l l' y outs outs' (backward : bool) F : shifted l l' -> orel outs outs' ->
  E (if backward then xbackward_sampling_pass mv Gat key rs' b (l, y, outs) true
     else xbackward_scanning_pass mv key b (l, y, outs)) F
  = E (if backward then xbackward_sampling_pass mv (xGammat (al_given_model s0 u0)) key rs' b (l', y, outs') true
     else xbackward_scanning_pass mv key b (l', y, outs')) F.
Proof.
move=> sl oo; have [gr0 [eA ep]] := orel_gens oo.
have gr : grel (behead (rev (xgens (l, y, outs)))) (behead (rev (xgens (l', y, outs')))).
  have : grel (rev (xgens (l, y, outs))) (rev (xgens (l', y, outs'))) by apply: grel_rev; split.
  by case: (rev _) => [|g gs]; case: (rev _) => [|g' gs'] //= [].
have pops : unzip2 (xgens (l, y, outs)) = unzip2 (xgens (l', y, outs')).
  by rewrite /unzip2 /xgens /= -!map_comp; congr cons.
have sz : size (xgens (l, y, outs)) = size (xgens (l', y, outs')).
  by have := congr1 size pops; rewrite !size_map.
have [sL e2] : shifted (xlast_gen (l, y, outs)).1 (xlast_gen (l', y, outs')).1
   /\ (xlast_gen (l, y, outs)).2 = (xlast_gen (l', y, outs')).2 by apply: grel_last.
have e1 : finite_weights (xnormalize (xlast_gen (l, y, outs)).1) = finite_weights (xnormalize (xlast_gen (l', y, outs')).1).
  by have [c ->] := sL; rewrite finite_sh.
case: backward.
- rewrite /xbackward_sampling_pass; move: sz e1 e2 gr {sL}.
  case: (xlast_gen (l, y, outs)) => lT xT; case: (xlast_gen (l', y, outs')) => lT' xT' sz /= e1 <- gr.
  rewrite !E_obind !E_on_weights e1 /= !size_map; case: sz; rewrite !size_map => ->.
  case: (finite_weights _) => [v|] //.
  apply: eq_E => -[B a]; rewrite !E_obind; exact: al_bscan_eq.
- rewrite /xbackward_scanning_pass; move: e1 e2 {sL}.
  case: (xlast_gen (l, y, outs)) => lT xT; case: (xlast_gen (l', y, outs')) => lT' xT' /= e1 <-.
  rewrite !E_obind !E_on_weights e1; case: (finite_weights _) => [v|] //.
  by apply: eq_E => -[B a]; move: pops; rewrite /xgens /= eA => ->.
Qed.

(** ** The sweep given the auxiliary variables *)
Definition al_given (s0 : setting) ss qs backward (key : key) x0 xs b0 bs u0 us :=
  odrop (xkernel (rs_keys rs key) mv (al_given_model s0 u0) key x0 xs b0 bs (zip ss us) (zip (zip ss us) qs) backward true).

Lemma al_sweep_eq s0 ss qs backward key x0 xs b0 bs u0 us f :
  size ss = size qs -> size us = size qs -> size bs = size qs -> size xs = size qs ->
  \sum_p0 iid (noise s0) p0 * lsum [seq iid (noise s) | s <- ss] (fun ps =>
    E (odrop (xal_sweep ld scale rs mv L0 Lt so0 sot key b0 bs (mk_pop u0 p0 b0 x0) (mk_pops us ps bs xs) u0 us s0 ss qs backward)) f)
  = E (al_given s0 ss qs backward key x0 xs b0 bs u0 us) f.
Proof.
move=> s1 s2 s3 s4; rewrite /al_given /odrop E_bind /xkernel E_obind /xforward_pass E_bind [in RHS]/=.
apply: eq_bigr => p0 _; congr (_ * _); cbn [E].
rewrite -/(mk_pop u0 p0 b0 x0); move: (mk_pop u0 p0 b0 x0) => y0.
rewrite al_lw0 E_obind.
have lo i : low (W0 s0 u0 y0 i) by exact: low_W0.
have [c ec] := minus_max_sh lo.
transitivity (lsum [seq iid (noise s) | s <- ss] (fun ps =>
  E (oscan body (xnormalize (xminus_max (W0 s0 u0 y0)), y0) (sinputs (zip (zip ss us) qs) (mk_pops us ps bs xs) b0 bs key 3))
   (fun o => match o with
             | Some (_, outs) => E (if backward
                   then xbackward_sampling_pass mv Gat (split key 2) (zip (zip ss us) qs) (last b0 bs) (xminus_max (W0 s0 u0 y0), y0, outs) true
                   else xbackward_scanning_pass mv (split key 2) (last b0 bs) (xminus_max (W0 s0 u0 y0), y0, outs))
                   (fun r => f (omap id r))
             | None => f None end))).
  apply: eq_lsum => ps; rewrite E_bind /xal_sweep E_obind /xal_forward E_obind; apply: eq_E => -[[c' outs]|] //; cbn [E].
  by rewrite E_obind; apply: eq_E => -[[xs' Bs]|].
rewrite /xnormalize norm_minus_max //.
apply: al_fwd_eq => // -[[c1 o1]|] [[c2 o2]|] //=; last first.
move=> [_ oo]; cbn [E]; rewrite !E_obind ec (@al_back_eq s0 u0 _ _ _ _ (sh (xminus_max (W0 s0 u0 y0)) c) _ _ o2) //; last by exists c.
by apply: eq_E => -[[xs' Bs]|].
Qed.

(** ** Summing over the auxiliary variables *)
Fixpoint al_law (xm : X) (xs : seq X) (ss : seq setting) (qs : seq Q) (us : seq X) : R :=
  match xs, ss, qs, us with
  | x :: xs', s :: ss', q :: qs', u :: us' => noise s (u - x - scale s (gt xm x q)) * al_law x xs' ss' qs' us'
  | _, _, _, _ => 1
  end.

Lemma xgrad_auxE xm xs ss qs es : xgrad_aux scale sot xm xs ss qs es = Some (grad_aux scale gt xm xs ss qs es).
Proof. by elim: xs xm ss qs es => [|x xs IH] xm [|s ss] [|q qs] [|e es] //=; rewrite IH. Qed.

Lemma lsum_al xm xs ss qs m (G : seq X -> R) : size ss = m -> size xs = m -> size qs = m ->
  lsum [seq noise s | s <- ss] (fun es => G (grad_aux scale gt xm xs ss qs es))
  = \sum_(us : m.-tuple X) al_law xm xs ss qs us * G us.
Proof.
elim: m xm xs ss qs G => [|m IH] xm [|x xs] [|s ss] [|q qs] G //=.
  by move=> _ _ _; rewrite (sum_tuple0 (fun us => 1 * G us)) mul1r.
move=> [s1] [s2] [s3].
rewrite (@sum_tuple_cons X _ (fun us => (match us with u :: us' => noise s (u - x - scale s (gt xm x q)) * al_law x xs ss qs us' | [::] => 1 end) * G us)).
rewrite (eq_bigr (fun y => noise s y * (\sum_(us : m.-tuple X) al_law x xs ss qs us * G ((x + scale s (gt xm x q) + y) :: us)))); last first.
  by move=> y _; rewrite (IH x xs ss qs (fun us => G ((x + scale s (gt xm x q) + y) :: us))).
rewrite (sum_shift _ _ (fun u => \sum_(us : m.-tuple X) al_law x xs ss qs us * G (u :: us))).
apply: eq_bigr => u _; rewrite mulr_sumr; apply: eq_bigr => us _.
by rewrite mulrA opprD addrA.
Qed.

Lemma al_law_sum xm xs ss qs m : size ss = m -> size xs = m -> size qs = m -> \sum_(us : m.-tuple X) al_law xm xs ss qs us = 1.
Proof.
move=> s1 s2 s3; have := lsum_al xm (fun _ => 1) s1 s2 s3; rewrite lsum_const => [H|nu].
  by rewrite [RHS]H; apply: eq_bigr => us _; rewrite mulr1.
by move=> /List.in_map_iff [s [<- _]].
Qed.

Lemma grad_aux_size xm (xs es : seq X) ss qs m : size es = m -> size xs = m -> size ss = m -> size qs = m ->
  size (grad_aux scale gt xm xs ss qs es) = m.
Proof. by elim: m xm xs es ss qs => [|m IH] xm [|x xs] [|e es] [|s ss] [|q qs] //= [a] [b] [c] [d]; rewrite IH. Qed.

Local Notation ker := (xal_kernel noise ld scale rs mv L0 Lt so0 sot).

Lemma al_E key x0 xs b0 bs s0 ss qs backward f :
  size ss = size qs -> size bs = size qs -> size xs = size qs ->
  E (odrop (ker key x0 xs b0 bs s0 ss qs backward)) f
  = \sum_u0 \sum_(us : (size qs).-tuple X) noise s0 (u0 - x0 - scale s0 (g0 x0)) * al_law x0 xs ss qs us
      * E (al_given s0 ss qs backward key x0 xs b0 bs u0 us) f.
Proof.
move=> s1 s3 s4; rewrite /odrop E_bind /xal_kernel E_bind E_normals.
transitivity (\sum_e0 noise s0 e0 * lsum [seq noise s | s <- ss] (fun es =>
   E (al_given s0 ss qs backward key x0 xs b0 bs (x0 + scale s0 (g0 x0) + e0) (grad_aux scale gt x0 xs ss qs es)) f)).
  apply: eq_bigr => e0 _; congr (_ * _); apply: eq_lsum_size => es; rewrite size_map => se.
  have su : size (grad_aux scale gt x0 xs ss qs es) = size qs by apply: grad_aux_size => //; rewrite se.
  rewrite -al_sweep_eq // /xal_aux xgrad_auxE E_bind E_normals; apply: eq_bigr => p0 _; congr (_ * _); apply: eq_lsum => ps.
  by rewrite /odrop E_bind.
rewrite (eq_bigr (fun e0 => noise s0 e0 * (\sum_(us : (size qs).-tuple X) al_law x0 xs ss qs us *
     E (al_given s0 ss qs backward key x0 xs b0 bs (x0 + scale s0 (g0 x0) + e0) us) f))); last first.
  by move=> e0 _; rewrite (lsum_al x0 (fun us => E (al_given s0 ss qs backward key x0 xs b0 bs (x0 + scale s0 (g0 x0) + e0) us) f) s1 s4).
rewrite (sum_shift _ _ (fun u0 => \sum_(us : (size qs).-tuple X) al_law x0 xs ss qs us *
     E (al_given s0 ss qs backward key x0 xs b0 bs u0 us) f)).
by apply: eq_bigr => u0 _; rewrite mulr_sumr; apply: eq_bigr => us _; rewrite mulrA opprD addrA.
Qed.

Lemma al_given_target s0 ss qs u0 us x0 xs : size ss = size qs -> size us = size qs -> size xs = size qs ->
  pot_target (Ga0 s0 u0) Gatt (zip (zip ss us) qs) x0 xs
  = pot_target G0 Gt qs x0 xs * (noise s0 (u0 - x0 - scale s0 (g0 x0)) * al_law x0 xs ss qs us).
Proof.
move=> s1 s2 s3; rewrite /pot_target.
have -> : pot_path Gatt x0 xs (zip (zip ss us) qs) = pot_path Gt x0 xs qs * al_law x0 xs ss qs us.
  elim: qs ss us xs x0 s1 s2 s3 => [|q qs IH] [|s ss] [|u us] [|x xs] x0 //=; first by rewrite mul1r.
  by move=> [s1] [s2] [s3]; rewrite IH // /Gatt /=; move: (Gt _ _ _) (noise _ _) (pot_path _ _ _ _) (al_law _ _ _ _ _) => a b c d; Rring.
rewrite /Ga0; move: (G0 _) (noise _ _) (pot_path _ _ _ _) (al_law _ _ _ _ _) => a b c d; by Rring.
Qed.

Lemma al_shift_prob s x : \sum_u noise s (u - x - scale s (g0 x)) = 1.
Proof.
rewrite -(shift_prob noiseP s (x + scale s (g0 x))); apply: eq_bigr => u _; by rewrite opprD addrA.
Qed.

Theorem al_invariant key s0 ss qs backward : good_mover mv -> size ss = size qs ->
  leaves_invariant_result (size qs) (pot_target G0 Gt qs)
    (fun x0 xs b0 bs => odrop (ker key x0 xs b0 bs s0 ss qs backward)).
Proof.
move=> mg s1 f.
pose T u0 us := pot_target (Ga0 s0 u0) Gatt (zip (zip ss us) qs).
transitivity (\sum_u0 \sum_(us : (size qs).-tuple X) traj_sum (size qs) (fun x0 xs b0 bs =>
   T u0 us x0 xs * E (al_given s0 ss qs backward key x0 xs b0 bs u0 us) f)).
  under [RHS]eq_bigr do rewrite -traj_sum_exchange.
  rewrite -traj_sum_exchange.
  apply: eq_bigr => x0 _; apply: eq_bigr => b0 _; apply: eq_bigr => xs _; apply: eq_bigr => bs _.
  rewrite al_E ?size_tuple // mulr_sumr; apply: eq_bigr => u0 _; rewrite mulr_sumr.
  by apply: eq_bigr => us _; rewrite /T al_given_target ?size_tuple // mulrA.
transitivity (\sum_u0 \sum_(us : (size qs).-tuple X) traj_sum (size qs) (fun x0 xs b0 bs =>
   T u0 us x0 xs * f (Some (x0 :: xs, b0 :: bs)))).
  apply: eq_bigr => u0 _; apply: eq_bigr => us _.
  have [z1 z2] := zip_size s1 (size_tuple us).
  have := nan_invariant (al_given_ok s0 u0) (rs_keys_good rs_good key) key backward mg z1 f.
  by rewrite z2.
under eq_bigr do rewrite -traj_sum_exchange.
rewrite -traj_sum_exchange.
apply: eq_bigr => x0 _; apply: eq_bigr => b0 _; apply: eq_bigr => xs _; apply: eq_bigr => bs _.
transitivity (\sum_u0 \sum_(us : (size qs).-tuple X) pot_target G0 Gt qs x0 xs * f (Some (x0 :: tval xs, b0 :: tval bs)) *
     (noise s0 (u0 - x0 - scale s0 (g0 x0)) * al_law x0 xs ss qs us)).
  apply: eq_bigr => u0 _; apply: eq_bigr => us _.
  by rewrite /T al_given_target ?size_tuple // mulrAC.
rewrite -[RHS]mulr1 -[X in _ = _ * X](al_shift_prob s0 x0) mulr_sumr; apply: eq_bigr => u0 _.
by rewrite -mulr_sumr; congr (_ * _); rewrite -mulr_sumr al_law_sum ?size_tuple ?mulr1.
Qed.

Lemma al_null key s0 ss qs backward x0 xs b0 bs (f : option (seq X * seq 'I_n) -> R) :
  good_mover mv -> proper_mover mv -> size ss = size qs -> size bs = size qs -> size xs = size qs ->
  (forall y0 ys c0 cs, size ys = size qs -> size cs = size qs ->
     pot_target G0 Gt qs y0 ys * f (Some (y0 :: ys, c0 :: cs)) = 0) ->
  0 < pot_target G0 Gt qs x0 xs ->
  E (odrop (ker key x0 xs b0 bs s0 ss qs backward)) f = 0.
Proof.
move=> mg mp s1 s2 s3 nul pos; rewrite al_E //.
rewrite big1 // => u0 _; rewrite big1 // => us _.
have [z1 z2] := zip_size s1 (size_tuple us).
rewrite /al_given (nan_null_any (al_given_ok s0 u0) (rs_keys_good rs_good key)) ?mulr0 // ?z2 //.
  by move=> y0 ys c0 cs s4 s5; rewrite al_given_target ?size_tuple // mulrAC nul // mul0r.
rewrite al_given_target ?size_tuple //; apply: mulr_gt0 => //; apply: mulr_gt0 => //.
elim: (xs) x0 {nul pos} (ss) (qs) (tval us) => [|x l IH] x0 [|s ss'] [|q qs'] [|u us'] //=; rewrite ?ltr01 //.
by apply: mulr_gt0.
Qed.

Lemma al_has_result key s0 ss qs backward x0 xs b0 bs :
  good_mover mv -> proper_mover mv -> size ss = size qs -> size xs = size qs -> size bs = size qs ->
  0 < pot_target G0 Gt qs x0 xs ->
  Pr (odrop (ker key x0 xs b0 bs s0 ss qs backward))
     (fun o => if o is Some (y0 :: ys, _) then pot_target G0 Gt qs y0 ys == 0 else true) = 0.
Proof.
move=> mg mp s1 s2 s3 pos; apply: al_null pos => // y0 ys c0 cs _ _ /=.
by case: eqP => [->|_]; rewrite ?mul0r ?mulr0.
Qed.

Lemma al_runs_result s0 ss qs backward keys x0 xs b0 bs :
  good_mover mv -> proper_mover mv -> size ss = size qs -> size xs = size qs -> size bs = size qs ->
  0 < pot_target G0 Gt qs x0 xs ->
  Pr (xal_runs noise ld scale rs mv L0 Lt so0 sot s0 ss qs backward keys (x0 :: xs, b0 :: bs)) (fun o => ~~ isSome o) = 0.
Proof.
move=> mg mp s1; elim: keys x0 xs b0 bs => [|k ks IH] x0 xs b0 bs s2 s3 pos //.
rewrite /Pr [xal_runs _ _ _ _ _ _ _ _ _ _ _ _ _ _ _]/= E_obind.
pose h o : R := if o is Some s then E (xal_runs noise ld scale rs mv L0 Lt so0 sot s0 ss qs backward ks s) (fun o => (~~ isSome o)%:R) else 1.
have := @al_null k s0 ss qs backward x0 xs b0 bs h mg mp s1 s3 s2.
rewrite /odrop E_bind => <- //.
  by apply: eq_E => -[r|].
move=> y0 ys c0 cs s4 s5.
have := rw_pot_ge0 L0_log Lt_log qs y0 ys; rewrite le_eqVlt => /orP [/eqP <-|p]; first by rewrite mul0r.
by have := IH y0 ys c0 cs s4 s5 p; rewrite /Pr => H; rewrite /h H mulr0.
Qed.

End Al.
