(** * LimitPrior: with wide auxiliary variables tp_csmc.py is csmc.py with the prior as proposal, and so is
    atp_csmc_f.py for diagonal covariances (C65). *)
From Coq Require Import Reals Lra FunctionalExtensionality.
From mathcomp Require Import all_ssreflect all_algebra.
From Verif Require Import RInst Prog Gauss GaussSpec GaussProofs Resampling Spec Csmc AuxCsmc Kalman Proposal TpCsmc TpReal DensityTp
  LimitSpec LimitTheory LimitCsmc LimitStep LimitTp.

Set Implicit Arguments.
Unset Strict Implicit.
Unset Printing Implicit Defensive.
Import GRing.Theory Num.Theory Order.TTheory.
Local Open Scope ring_scope.

Section Prior.
Variables (d n' : nat) (Q : Type).
Local Notation vec := 'cV[R]_d.
Local Notation n := n'.+1.
Local Notation pop := (pop vec n').
Local Notation step := (step d Q).
Variables (mu0 : vec) (mut : vec -> Q -> vec) (r0 : vec -> R) (rt : vec -> vec -> Q -> R) (g0 : vec -> vec) (gt : vec -> vec -> Q -> vec).
Hypotheses (mutc : forall q, vcont (mut ^~ q)) (r0c : cont r0) (rtc : forall q, cont2 (fun xm x => rt xm x q))
  (g0c : vcont g0) (gtc : forall q, vcont2 (fun xm x => gt xm x q)).
Variables (kap : nat -> R).
Hypotheses (k0 : forall m, 0 < kap m) (kinf : to_infinity kap).
Local Notation cvX := (@vlim d 1).
Local Notation cvpop := (@cvpop vec cvX n').

Lemma offset_wide (s : step) (ok : step_ok s) (m : nat -> vec) m' : vlim m m' ->
  vlim (fun k => m k - step_gain (widen (kap k) s) *m m k) m'.
Proof. by move=> h; have := vlim_sub h (vlim_mul (gain_wide ok k0 kinf) h); rewrite mul0mx subr0. Qed.

Lemma H0_wide (s : step) (ok : step_ok s) (x : nat -> pop) y (phi : nat -> vec) phi' i : cvpop x y -> vlim phi phi' ->
  lim (fun m => step_H0 mu0 (widen (kap m) s) (x m) (phi m) i) (- step_prior s mu0 (y i)).
Proof.
move=> xy ph; have off : vlim (fun m => mu0 - step_gain (widen (kap m) s) *m mu0) mu0.
  by apply: (@offset_wide s ok (fun=> mu0) mu0); exact: vlim_const.
rewrite step_priorE // -(@log_H_at_wide d Q s n' y (fun=> mu0) (y i) mu0 phi').
exact: (lim_log_H_at xy (fun=> off) (gain_wide ok k0 kinf) (K_inv_wide ok k0 kinf) (G_wide ok k0 kinf n') (xy i) off ph).
Qed.

Lemma H_wide (s : step) (ok : step_ok s) (xm x : nat -> pop) ym y (phi : nat -> vec) phi' i : cvpop xm ym -> cvpop x y -> vlim phi phi' ->
  lim (fun m => step_H mut (widen (kap m) s) (xm m) (x m) (phi m) i) (- step_prior s (mut (ym i) (st_q s)) (y i)).
Proof.
move=> xym xy ph.
have off j : vlim (fun m => mut (xm m j) (st_q s) - step_gain (widen (kap m) s) *m mut (xm m j) (st_q s)) (mut (ym j) (st_q s)).
  by apply: (@offset_wide s ok (fun m => mut (xm m j) (st_q s))); apply: mutc.
rewrite step_priorE // -(@log_H_at_wide d Q s n' y (fun j => mut (ym j) (st_q s)) (y i) (mut (ym i) (st_q s)) phi').
exact: (lim_log_H_at xy off (gain_wide ok k0 kinf) (K_inv_wide ok k0 kinf) (G_wide ok k0 kinf n') (xy i) (off i) ph).
Qed.

Lemma pop_wide (s : step) (ok : step_ok s) (u : nat -> vec) (e : pop) b x (m : nat -> 'I_n -> vec) m' :
  vlim (fun k => (kap k)^-1 *: u k) 0 -> (forall i, vlim (fun k => m k i) (m' i)) ->
  cvpop (fun k => upd [ffun i => prop_rvs (step_prop (widen (kap k) s)) (u k) (m k i) (e i)] b x)
        (upd [ffun i => rvs_of ([ffun i => turn s *m e i] i) (m' i) (cholesky (st_Q s))] b x).
Proof.
move=> hu hm i.
apply: (vlim_ext (x := fun k => if i == b then x else prop_rvs (step_prop (widen (kap k) s)) (u k) (m k i) (e i))) => [k|].
  by rewrite /upd !ffunE.
rewrite /upd !ffunE; case: (i == b); first exact: vlim_const.
exact: rvs_wide.
Qed.

Variables (rs : resampler n) (mv : mover n).
Hypotheses (rsc : cont_resampler rs) (mvc : cont_mover mv).
Variables (eps : key -> pop) (s0 : step) (ss : seq step) (ok0 : step_ok s0) (ok : forall s, List.In s ss -> step_ok s).
Variables (key : key) (x0 : vec) (xs : seq vec) (b0 : 'I_n) (bs : seq 'I_n) (u0 : nat -> vec) (us : nat -> seq vec) (backward : bool).
Definition slower (u : nat -> vec) (s : step) : Prop := vlim (fun m => (kap m)^-1 *: u m) 0.
Hypotheses (u0l : slower u0 s0) (usl : seq_lim slower us ss).
Local Notation md' := (prior_vec mu0 mut r0 rt (fun s k => [ffun i => turn s *m eps k i]) s0).
Local Notation rvs0 m := (step_rvs0 mu0 eps (widen (kap m) s0) (u0 m)).

Lemma init_wide : plim (fun z z' => cvpop (fun m => upd (z m) b0 x0) (upd z' b0 x0)) (fun m => rvs0 m (split key 0)) (M0_rvs md' (split key 0)).
Proof. by apply: plim_ret; apply: (@pop_wide s0 ok0 u0 _ b0 x0 (fun _ _ => mu0) (fun=> mu0)) => // i; exact: vlim_const. Qed.

Lemma rvs_prior (s : step) (oks : step_ok s) u b x k (xm : nat -> pop) xm' : slower u s -> cvpop xm xm' ->
  plim (fun z z' => cvpop (fun m => upd (z m) b x) (upd z' b x))
    (fun m => step_rvs mut eps k (xm m) (u m, widen (kap m) s)) (Mt_rvs md' k xm' s).
Proof.
move=> hu xl; apply: plim_ret.
by apply: (@pop_wide s oks u _ b x (fun m i => mut (xm m i) (st_q s)) (fun i => mut (xm' i) (st_q s))) => // i; apply: mutc.
Qed.

Lemma prior_t_wide (s : step) (oks : step_ok s) (xm x : nat -> vec) xm' x' : vlim xm xm' -> vlim x x' ->
  lim (fun m => step_prior_t mut (xm m) (x m) (widen (kap m) s)) (step_prior_t mut xm' x' s).
Proof. by move=> h k; exact: (prior_wide kap oks (@mutc (st_q s) _ _ h) k). Qed.

Lemma in_prior (P : Type) (md : nat -> model vec n' (vec * step) P) (q : R -> vec -> step -> P) :
  (forall m, Mt_rvs (md m) = step_rvs mut eps) ->
  forall tt : seq step, (forall s, List.In s tt -> step_ok s) ->
  (forall s u (xm xt : nat -> pop) xm' xt', List.In s tt -> slower u s -> cvpop xm xm' -> cvpop xt xt' ->
     lw_lim (fun m l => Gammat (md m) (xm m l) (xt m l) (q (kap m) (u m) s) - Mt_logpdf (md m) (xm m) (xt m) (u m, widen (kap m) s) l)
         (fun l => Gammat md' (xm' l) (xt' l) s - Mt_logpdf md' xm' xt' s l)) ->
  forall c b vs cs zs, seq_lim slower vs tt ->
  seq_lim (cvJ cvX md md')
    (fun m => inputs (zip (vs m) [seq widen (kap m) s | s <- tt]) [seq q (kap m) p.1 p.2 | p <- zip (vs m) tt] b cs (split key 1) c zs)
    (inputs tt tt b cs (split key 1) c zs).
Proof.
move=> er; elim=> [|s tt IH] okt hw c b vs cs zs; first by move=> e m; rewrite e.
case=> v [vs' [e hv hvs]]; have oks : step_ok s by apply: okt; left.
case: cs => [|b' cs]; first by move=> m; rewrite e.
case: zs => [|z zs]; first by move=> m; rewrite e.
exists (fun m => Inp (v m, widen (kap m) s) (q (kap m) (v m) s) b b' (split (split key 1) c) z).
exists (fun m => inputs (zip (vs' m) [seq widen (kap m) s | s <- tt]) [seq q (kap m) p.1 p.2 | p <- zip (vs' m) tt] b' cs (split key 1) c.+1 zs).
split=> [m||]; first by rewrite e.
  split=> // [xm xm' xl|xm xm' xt xt' xl xtl].
    rewrite (_ : (fun m => _) = (fun m => step_rvs mut eps (split (split (split key 1) c) 0) (xm m) (v m, widen (kap m) s))).
      exact: rvs_prior.
    by apply: functional_extensionality => m; rewrite er.
  by apply: hw => //; left.
by apply: IH => // [s' h|s' u xm xt xm' xt' h]; [apply: okt; right|apply: hw; right].
Qed.

Lemma end_wide (f : seq vec * seq 'I_n -> R) r r' : path_cont f -> cvP cvX r r' -> lim (fun m => f (r m)) (f r').
Proof. by case: r' => p i fc [/= /path_of_seq h e]; apply: lim_ext (fc _ _ i h) => m; rewrite -(e m); case: (r m). Qed.

(** ** tp_csmc.py *)
Local Notation tp m := (tp_vec mu0 mut r0 rt g0 gt (widen (kap m) s0) (rvs0 m) (step_rvs mut eps)).

Lemma tp_W0w (x : nat -> pop) y : cvpop x y ->
  lw_lim (fun m l => Gamma0 (tp m) (x m l) - M0_logpdf (tp m) (x m) l) (fun l => Gamma0 md' (y l) - M0_logpdf md' y l).
Proof.
move=> xy; apply: lw_of_lim => l; have g := scale_lim (sizes s0) (g0c (xy l)).
have H := lim_add (lim_add (prior_wide kap ok0 (vlim_const mu0) (xy l)) (r0c (xy l))) (H0_wide ok0 l xy g).
by apply: lim_ext H => m; rewrite /= /tp_M0_logpdf /tp_Gamma_0 opprK.
Qed.

Lemma tp_Wtw (s : step) (u : nat -> vec) (xm xt : nat -> pop) xm' xt' : step_ok s -> cvpop xm xm' -> cvpop xt xt' ->
  lw_lim (fun m l => Gammat (tp m) (xm m l) (xt m l) (widen (kap m) s) - Mt_logpdf (tp m) (xm m) (xt m) (u m, widen (kap m) s) l)
      (fun l => Gammat md' (xm' l) (xt' l) s - Mt_logpdf md' xm' xt' s l).
Proof.
move=> oks xml xtl; apply: lw_of_lim => l; have g := scale_lim (sizes s) (@gtc (st_q s) _ _ _ _ (xml l) (xtl l)).
have H := lim_add (lim_add (prior_t_wide oks (xml l) (xtl l)) (@rtc (st_q s) _ _ _ _ (xml l) (xtl l))) (H_wide oks l xml xtl g).
by apply: lim_ext H => m; rewrite /= /tp_Mt_logpdf /tp_Gamma_t opprK.
Qed.

Lemma tp_Qw (tt : seq step) : (forall s, List.In s tt -> step_ok s) ->
  seq_lim (cvQ cvX (fun m => tp m) (Gammat md')) (fun m => [seq widen (kap m) s | s <- tt]) tt.
Proof.
elim: tt => [|s tt IH] okt //=.
eexists; eexists; split; [by move=> m; reflexivity| |by apply: IH => s' h; apply: okt; right].
exists (fun=> 0) => x x' y y' hx hy; have oks : step_ok s by apply: okt; left.
have H := lim_add (prior_t_wide oks hx hy) (@rtc (st_q s) _ _ _ _ hx hy).
by apply: lim_ext H => m; rewrite addr0.
Qed.

Lemma map_zip_wide (k : R) (vs : seq vec) (tt : seq step) : size vs = size tt -> [seq widen k s | s <- tt] = [seq widen k p.2 | p <- zip vs tt].
Proof. by elim: vs tt => [|v vs IH] [|s tt] //= [e]; rewrite -IH. Qed.

Theorem tp_wide (f : seq vec * seq 'I_n -> R) : path_cont f ->
  lim (fun m => E (drop_weights (kernel rs mv (tp m) key x0 xs b0 bs (zip (us m) [seq widen (kap m) s | s <- ss])
         [seq widen (kap m) s | s <- ss] backward true)) f)
      (E (drop_weights (kernel rs mv md' key x0 xs b0 bs ss ss backward true)) f).
Proof.
move=> fc; have H := @kernel_lim2 vec cvX n' _ _ _ _ rs mv rsc mvc (fun m => tp m) md' key x0 xs b0 bs
  (fun m => zip (us m) [seq widen (kap m) s | s <- ss]) (fun m => [seq widen (kap m) s | s <- ss]) ss ss backward.
apply: (H init_wide _ _ (tp_Qw ok) (fun=> f) f _); first by move=> x y; exact: tp_W0w.
  have G := @in_prior step (fun m => tp m) (fun k _ s => widen k s) (fun=> erefl) ss ok
    (fun s u xm xt xm' xt' h _ => @tp_Wtw s u xm xt xm' xt' (ok h)) 0%N b0 us bs xs usl.
  by apply: seq_lim_ext G => m; rewrite (map_zip_wide _ (seq_lim_size m usl)).
by move=> r r'; exact: end_wide.
Qed.

(** ** atp_csmc_f.py *)
Local Notation atp m := (atp_vec mu0 mut r0 rt g0 gt (widen (kap m) s0) (u0 m) (rvs0 m) (step_rvs mut eps)).

(** The density of the auxiliary variable is constant in the limit. *)
Lemma ld_wide (s : step) (oks : step_ok s) (u z : nat -> vec) z' : slower u s -> vlim z z' ->
  lim (fun m => step_ld (widen (kap m) s) (u m - z m) + sqn (u m) / (kap m * st_ell s)) 0.
Proof.
move=> hu hz; have rk := inv_flat kinf; have l0 := l_ok oks.
have H := lim_mul (lim_sub (lim_mul (lim_const 2%:R) (lim_dotv hu hz)) (lim_mul rk (lim_sqn hz))) (lim_const (st_ell s)^-1).
have e : dotv (0 : vec) z' = 0 by rewrite /dotv trmx0 mul0mx mxE.
rewrite e mulr0 mul0r subr0 mul0r in H; apply: lim_ext H => m.
rewrite /step_ld /sizes_ld /= !sqnE; distr.
rewrite [dotv (z m) (u m)]dotvC; have kk := k0 m.
move: (dotv (u m) (z m)) (dotv (z m) (z m)) (dotv (u m) (u m)) (kap m) (st_ell s) kk l0 => a b c k l kk l0.
by toR; field; toR; split; lra.
Qed.

Lemma atp_Gw (s : step) (u : nat -> vec) : step_ok s -> slower u s -> forall (x y : nat -> vec) x' y', vlim x x' -> vlim y y' ->
  lim (fun m => Gammat (atp m) (x m) (y m) (u m, widen (kap m) s) + sqn (u m) / (kap m * st_ell s)) (Gammat md' x' y' s).
Proof.
move=> oks hu x y x' y' xl yl; have g := scale_lim (sizes s) (@gtc (st_q s) _ _ _ _ xl yl).
have D := ld_wide oks hu (vlim_add yl g).
have H := lim_add (lim_add (prior_t_wide oks xl yl) (@rtc (st_q s) _ _ _ _ xl yl)) D.
rewrite addr0 in H; apply: lim_ext H => m.
by rewrite addrA /= /atp_Gamma_t opprD addrA.
Qed.

Lemma pld_prior (s : step) (oks : step_ok s) (dg : st_Q s = diag_mx (st_G s)) (u m x : nat -> vec) m' x' : slower u s -> vlim m m' -> vlim x x' ->
  lim (fun k => step_pld (widen (kap k) s) (x k - prop_mean (step_prop (widen (kap k) s)) (u k) (m k))) (step_prior s m' x').
Proof.
move=> hu hm hx; have M := vlim_sub hx (mean_wide oks k0 kinf hu hm).
by have := pld_wide oks k0 kinf m' dg M; rewrite addrC subrK.
Qed.

Lemma atp_W0w (x : nat -> pop) y : st_Q s0 = diag_mx (st_G s0) -> cvpop x y ->
  lw_lim (fun m l => Gamma0 (atp m) (x m l) - M0_logpdf (atp m) (x m) l) (fun l => Gamma0 md' (y l) - M0_logpdf md' y l).
Proof.
move=> dg xy; exists (fun m => sqn (u0 m) / (kap m * st_ell s0)) => l; have g := scale_lim (sizes s0) (g0c (xy l)).
have D := ld_wide ok0 u0l (vlim_add (xy l) g).
have H := lim_sub (lim_add (lim_add (prior_wide kap ok0 (vlim_const mu0) (xy l)) (r0c (xy l))) D) (pld_prior ok0 dg u0l (vlim_const mu0) (xy l)).
rewrite addr0 in H; apply: lim_ext H => m.
by rewrite addrA addrAC /= /atp_Gamma_0 opprD addrA.
Qed.

Lemma atp_Wtw (s : step) (u : nat -> vec) (xm xt : nat -> pop) xm' xt' : step_ok s -> st_Q s = diag_mx (st_G s) -> slower u s ->
  cvpop xm xm' -> cvpop xt xt' ->
  lw_lim (fun m l => Gammat (atp m) (xm m l) (xt m l) (u m, widen (kap m) s) - Mt_logpdf (atp m) (xm m) (xt m) (u m, widen (kap m) s) l)
      (fun l => Gammat md' (xm' l) (xt' l) s - Mt_logpdf md' xm' xt' s l).
Proof.
move=> oks dg hu xml xtl; exists (fun m => sqn (u m) / (kap m * st_ell s)) => l.
have H := lim_sub (atp_Gw oks hu (xml l) (xtl l)) (pld_prior oks dg hu (@mutc (st_q s) _ _ (xml l)) (xtl l)).
by apply: lim_ext H => m; rewrite addrAC.
Qed.

Lemma atp_Qw (tt : seq step) (vs : nat -> seq vec) : (forall s, List.In s tt -> step_ok s) -> seq_lim slower vs tt ->
  seq_lim (cvQ cvX (fun m => atp m) (Gammat md')) (fun m => zip (vs m) [seq widen (kap m) s | s <- tt]) tt.
Proof.
elim: tt vs => [|s tt IH] vs okt; first by move=> e m; rewrite e.
case=> v [vs' [e hv hvs]]; have oks : step_ok s by apply: okt; left.
exists (fun m => (v m, widen (kap m) s)), (fun m => zip (vs' m) [seq widen (kap m) s | s <- tt]); split=> [m||]; first by rewrite e.
  by exists (fun m => sqn (v m) / (kap m * st_ell s)) => x x' y y' hx hy; exact: atp_Gw.
by apply: IH => // s' h; apply: okt; right.
Qed.

Hypotheses (dg0 : st_Q s0 = diag_mx (st_G s0)) (dg : forall s, List.In s ss -> st_Q s = diag_mx (st_G s)).

Lemma zip_wide (k : R) (vs : seq vec) (tt : seq step) : zip vs [seq widen k s | s <- tt] = [seq (p.1, widen k p.2) | p <- zip vs tt].
Proof. by elim: vs tt => [|v vs IH] [|s tt] //=; rewrite IH. Qed.

Theorem atp_wide (f : seq vec * seq 'I_n -> R) : path_cont f ->
  lim (fun m => E (drop_weights (kernel rs mv (atp m) key x0 xs b0 bs (zip (us m) [seq widen (kap m) s | s <- ss])
         (zip (us m) [seq widen (kap m) s | s <- ss]) backward true)) f)
      (E (drop_weights (kernel rs mv md' key x0 xs b0 bs ss ss backward true)) f).
Proof.
move=> fc; have H := @kernel_lim2 vec cvX n' _ _ _ _ rs mv rsc mvc (fun m => atp m) md' key x0 xs b0 bs
  (fun m => zip (us m) [seq widen (kap m) s | s <- ss]) (fun m => zip (us m) [seq widen (kap m) s | s <- ss]) ss ss backward.
apply: (H init_wide _ _ (atp_Qw ok usl) (fun=> f) f _); first by move=> x y; exact: atp_W0w.
  have G := @in_prior (vec * step) (fun m => atp m) (fun k u s => (u, widen k s)) (fun=> erefl) ss ok
    (fun s u xm xt xm' xt' h hu => @atp_Wtw s u xm xt xm' xt' (ok h) (dg h) hu) 0%N b0 us bs xs usl.
  by apply: seq_lim_ext G => m; rewrite -zip_wide.
by move=> r r'; exact: end_wide.
Qed.
End Prior.
