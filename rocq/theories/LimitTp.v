(** * LimitTp: with a flat prior tp_csmc.py is l_csmc_f.py and atp_csmc_f.py is al_csmc_f.py (C65). *)
From Coq Require Import Reals FunctionalExtensionality.
From mathcomp Require Import all_ssreflect all_algebra.
From Verif Require Import RInst Prog Gauss Resampling Spec Csmc AuxCsmc Proposal TpCsmc TpReal DensityTp LimitSpec LimitTheory LimitCsmc LimitStep.

Set Implicit Arguments.
Unset Strict Implicit.
Unset Printing Implicit Defensive.
Import GRing.Theory Num.Theory Order.TTheory.
Local Open Scope ring_scope.

Lemma path_of_seq d (x : nat -> seq 'cV[R]_d) l : seq_lim (@vlim d 1) x l -> path_lim x l.
Proof.
move=> h; split=> [n|]; first exact: seq_lim_size h.
elim: l x h => [|y l IH] x /=.
  by move=> e t; apply: (vlim_ext (x := fun=> 0)) => [n|]; rewrite ?e ?nth_nil //; exact: vlim_const.
case=> a [x' [e ay xl]] [|t] /=; first by apply: vlim_ext ay => n; rewrite e.
by apply: vlim_ext (IH _ xl t) => n; rewrite e.
Qed.

Section Tp.
Variables (d n' : nat) (Q : Type).
Local Notation vec := 'cV[R]_d.
Local Notation n := n'.+1.
Local Notation pop := (pop vec n').
Local Notation step := (step d Q).
Variables (mu0 : vec) (mut : vec -> Q -> vec) (r0 : vec -> R) (rt : vec -> vec -> Q -> R) (g0 : vec -> vec) (gt : vec -> vec -> Q -> vec).
Hypotheses (mutc : forall q, vcont (mut ^~ q)) (r0c : cont r0) (rtc : forall q, cont2 (fun xm x => rt xm x q))
  (g0c : vcont g0) (gtc : forall q, vcont2 (fun xm x => gt xm x q)).
Variables (kap : nat -> R).
Hypotheses (k0 : forall m, 0 < kap m) (kinf : to_infinity kap).
Local Notation cvX := (@vlim d 1).
Local Notation cvpop := (@cvpop vec cvX n').

Lemma scale_lim (s : R * R) (g : nat -> vec) l : vlim g l -> vlim (fun m => sizes_step s (g m)) (sizes_step s l).
Proof. by move=> h; apply: vlim_scale h; exact: lim_const. Qed.

Lemma offset_flat (s : step) (ok : step_ok s) (m : nat -> vec) m' : vlim m m' -> vlim (fun k => m k - step_gain (inflate (kap k) s) *m m k) 0.
Proof. by move=> h; have := vlim_sub h (vlim_mul (gain_flat ok k0 kinf) h); rewrite mul1mx subrr. Qed.

Lemma H0_flat (s : step) (ok : step_ok s) (x : nat -> pop) y (phi : nat -> vec) phi' i : cvpop x y -> vlim phi phi' ->
  lim (fun m => step_H0 mu0 (inflate (kap m) s) (x m) (phi m) i) (sizes_H (sizes s) y phi' (y i)).
Proof.
move=> xy ph; rewrite /sizes_H -log_H_bis_flat; last exact: (l_ok ok).
have off : vlim (fun m => mu0 - step_gain (inflate (kap m) s) *m mu0) 0 by apply: (@offset_flat s ok (fun=> mu0) mu0); exact: vlim_const.
by apply: (lim_log_H_bis _ xy (fun=> off) (gain_flat ok k0 kinf) (K_inv_flat ok k0 kinf) (inv_gain_flat ok k0 kinf n') (xy i) off ph).
Qed.

Lemma H_flat (s : step) (ok : step_ok s) (xm x : nat -> pop) ym y (phi : nat -> vec) phi' i : cvpop xm ym -> cvpop x y -> vlim phi phi' ->
  lim (fun m => step_H mut (inflate (kap m) s) (xm m) (x m) (phi m) i) (sizes_H (sizes s) y phi' (y i)).
Proof.
move=> xym xy ph; rewrite /sizes_H -log_H_bis_flat; last exact: (l_ok ok).
have off j : vlim (fun m => mut (xm m j) (st_q s) - step_gain (inflate (kap m) s) *m mut (xm m j) (st_q s)) 0.
  by apply: (@offset_flat s ok (fun m => mut (xm m j) (st_q s)) (mut (ym j) (st_q s))); apply: mutc.
by apply: (lim_log_H_bis _ xy off (gain_flat ok k0 kinf) (K_inv_flat ok k0 kinf) (inv_gain_flat ok k0 kinf n') (xy i) (off i) ph).
Qed.

(** Particles, the reference particle included. *)
Lemma pop_flat (s : step) (ok : step_ok s) u (e : pop) b x (m : nat -> 'I_n -> vec) m' : (forall i, vlim (fun k => m k i) (m' i)) ->
  cvpop (fun k => upd [ffun i => prop_rvs (step_prop (inflate (kap k) s)) u (m k i) (e i)] b x) (mk_pop u (turned s e) b x).
Proof.
move=> hm i; rewrite /mk_pop.
apply: (vlim_ext (x := fun k => if i == b then x else prop_rvs (step_prop (inflate (kap k) s)) u (m k i) (e i))) => [k|].
  by rewrite /upd !ffunE.
rewrite /upd !ffunE; case: (i == b); first exact: vlim_const.
exact: rvs_flat.
Qed.

Variables (rs : resampler n) (mv : mover n).
Hypotheses (rsc : cont_resampler rs) (mvc : cont_mover mv).
Variables (eps : key -> pop) (s0 : step) (ss : seq step) (ok0 : step_ok s0) (ok : forall s, List.In s ss -> step_ok s).
Variables (key key' : key) (x0 : vec) (xs : seq vec) (b0 : 'I_n) (bs : seq 'I_n) (u0 : vec) (us : seq vec) (backward : bool).

Local Notation y0 := (mk_pop u0 (turned s0 (eps (split key 0))) b0 x0).
Local Notation ys := (mk_pops us (turned_from eps (split key 1) 0 ss) bs xs).

Lemma init_flat :
  plim (fun z (_ : unit) => cvpop (fun m => upd (z m) b0 x0) y0)
    (fun m => step_rvs0 mu0 eps (inflate (kap m) s0) u0 (split key 0)) (Ret tt).
Proof. by apply: plim_ret; apply: (@pop_flat s0 ok0 u0 _ b0 x0 (fun _ _ => mu0) (fun=> mu0)) => i; exact: vlim_const. Qed.

Lemma rvs_step (s : step) (oks : step_ok s) (A : Type) (t : A) u b x k (xm : nat -> pop) xm' : cvpop xm xm' ->
  plim (fun z s' => s' = t /\ cvpop (fun m => upd (z m) b x) (mk_pop u (turned s (eps k)) b x))
    (fun m => step_rvs mut eps k (xm m) (u, inflate (kap m) s)) (Ret t).
Proof.
move=> xl; apply: plim_ret; split=> //.
by apply: (@pop_flat s oks u _ b x (fun m i => mut (xm m i) (st_q s)) (fun i => mut (xm' i) (st_q s))) => i; apply: mutc.
Qed.

Lemma in_lim_gen (P PP : Type) (md : nat -> model vec n' (vec * step) P) (Wt : pop -> pop -> PP -> lwts n')
    (q : R -> vec -> step -> P) (pp : vec -> step -> PP) :
  (forall m, Mt_rvs (md m) = step_rvs mut eps) ->
  (forall s u (xm xt : nat -> pop) xm' xt' l, step_ok s -> cvpop xm xm' -> cvpop xt xt' ->
     lim (fun m => Gammat (md m) (xm m l) (xt m l) (q (kap m) u s) - Mt_logpdf (md m) (xm m) (xt m) (u, inflate (kap m) s) l)
         (Wt xm' xt' (pp u s) l)) ->
  forall c c' b (tt : seq step), (forall s, List.In s tt -> step_ok s) -> forall vs cs zs,
  seq_lim (cvI cvX md Wt)
    (fun m => inputs [seq (p.1, inflate (kap m) p.2) | p <- zip vs tt] [seq q (kap m) p.1 p.2 | p <- zip vs tt] b cs (split key 1) c zs)
    (sinputs [seq pp p.1 p.2 | p <- zip vs tt] (mk_pops vs (turned_from eps (split key 1) c tt) cs zs) b cs key' c').
Proof.
move=> er hw c c' b tt; elim: tt c c' b => [|s tt IH] c c' b okt [|v vs] [|b' cs] [|z zs] //=.
have oks : step_ok s by apply: okt; left.
eexists; eexists; split; [by move=> m; reflexivity| |by apply: IH => s' h; apply: okt; right].
split=> //= xm xm'; first by move=> xl; rewrite (_ : (fun m => _) = (fun m => step_rvs mut eps (split (split (split key 1) c) 0) (xm m) (v, inflate (kap m) s)));
  [exact: rvs_step|apply: functional_extensionality => m; rewrite er].
by move=> xt xml xtl l; apply: hw.
Qed.

(** ** tp_csmc.py *)
Local Notation tp m := (tp_vec mu0 mut r0 rt g0 gt (inflate (kap m) s0) (step_rvs0 mu0 eps (inflate (kap m) s0) u0) (step_rvs mut eps)).
Local Notation W0 := (l_Gamma_0_tilde (@sizes_step d) (@sizes_H d n') r0 g0).
Local Notation Wt := (l_Gamma_t_tilde (@sizes_step d) (@sizes_H d n') rt gt).

Lemma prior_t_flat (s : step) (oks : step_ok s) (xm x : nat -> vec) xm' x' : vlim xm xm' -> vlim x x' ->
  lim (fun m => step_prior_t mut (xm m) (x m) (inflate (kap m) s)) 0.
Proof. by move=> h k; apply: (prior_flat oks k0 kinf (m' := mut xm' (st_q s))) k; apply: mutc. Qed.

Lemma tp_W0 (x : nat -> pop) y : cvpop x y -> forall l,
  lim (fun m => Gamma0 (tp m) (x m l) - M0_logpdf (tp m) (x m) l) (W0 (sizes s0) y l).
Proof.
move=> xy l; have g := scale_lim (sizes s0) (g0c (xy l)).
have H := lim_add (lim_add (prior_flat ok0 k0 kinf (vlim_const mu0) (xy l)) (r0c (xy l))) (H0_flat ok0 l xy g).
by rewrite add0r in H; apply: lim_ext H => m; rewrite /= /tp_M0_logpdf /tp_Gamma_0 opprK.
Qed.

Lemma tp_Wt (s : step) u (xm xt : nat -> pop) xm' xt' l : step_ok s -> cvpop xm xm' -> cvpop xt xt' ->
  lim (fun m => Gammat (tp m) (xm m l) (xt m l) (inflate (kap m) s) - Mt_logpdf (tp m) (xm m) (xt m) (u, inflate (kap m) s) l)
      (Wt xm' xt' (sizes s, st_q s) l).
Proof.
move=> oks xml xtl; have g := scale_lim (sizes s) (@gtc (st_q s) _ _ _ _ (xml l) (xtl l)).
have H := lim_add (lim_add (prior_t_flat oks (xml l) (xtl l)) (@rtc (st_q s) _ _ _ _ (xml l) (xtl l))) (H_flat oks l xml xtl g).
by rewrite add0r in H; apply: lim_ext H => m; rewrite /= /tp_Mt_logpdf /tp_Gamma_t opprK.
Qed.

Lemma tp_Q (tt : seq step) : (forall s, List.In s tt -> step_ok s) ->
  seq_lim (cvQ cvX (fun m => tp m) rt) (fun m => [seq inflate (kap m) s | s <- tt]) [seq st_q s | s <- tt].
Proof.
elim: tt => [|s tt IH] okt //=.
eexists; eexists; split; [by move=> m; reflexivity| |by apply: IH => s' h; apply: okt; right].
exists (fun=> 0) => x x' y y' hx hy; have oks : step_ok s by apply: okt; left.
have H := lim_add (prior_t_flat oks hx hy) (@rtc (st_q s) _ _ _ _ hx hy).
by rewrite add0r in H; apply: lim_ext H => m; rewrite addr0.
Qed.

Lemma zip_inflate (k : R) (vs : seq vec) (tt : seq step) : zip vs [seq inflate k s | s <- tt] = [seq (p.1, inflate k p.2) | p <- zip vs tt].
Proof. by elim: vs tt => [|v vs IH] [|s tt] //=; rewrite IH. Qed.
Lemma map_zip (A : Type) (f : step -> A) (vs : seq vec) (tt : seq step) : size vs = size tt -> [seq f s | s <- tt] = [seq f p.2 | p <- zip vs tt].
Proof. by elim: vs tt => [|v vs IH] [|s tt] //= [e]; rewrite -IH. Qed.
Lemma zip_map2 (A B : Type) (f : step -> A) (g : step -> B) (tt : seq step) : zip [seq f s | s <- tt] [seq g s | s <- tt] = [seq (f s, g s) | s <- tt].
Proof. by elim: tt => [|s tt IH] //=; rewrite IH. Qed.

Hypothesis us_ss : size us = size ss.

Theorem tp_flat (f : seq vec * seq 'I_n -> R) : path_cont f ->
  lim (fun m => E (drop_weights (kernel rs mv (tp m) key x0 xs b0 bs (zip us [seq inflate (kap m) s | s <- ss])
         [seq inflate (kap m) s | s <- ss] backward true)) f)
      (E (drop_weights (l_sweep (@sizes_step d) (@sizes_H d n') r0 rt g0 gt rs mv key' b0 bs y0 ys (sizes s0) [seq sizes s | s <- ss]
         [seq st_q s | s <- ss] backward)) f).
Proof.
move=> fc; have H := @kernel_lim vec cvX n' _ _ _ _ rs mv rsc mvc (fun m => tp m) (W0 (sizes s0)) Wt rt key key' x0 xs b0 bs
  (fun m => zip us [seq inflate (kap m) s | s <- ss]) (fun m => [seq inflate (kap m) s | s <- ss]) y0 ys
  (zip [seq sizes s | s <- ss] [seq st_q s | s <- ss]) [seq st_q s | s <- ss] backward.
apply: (H init_flat _ _ (tp_Q ok) (fun=> f) f _); first by move=> x xl l; exact: tp_W0.
  rewrite zip_map2 (map_zip _ us_ss).
  have G := @in_lim_gen step ((R * R) * Q) (fun m => tp m) Wt (fun k _ s => inflate k s) (fun _ s => (sizes s, st_q s)) (fun=> erefl)
    (fun s u xm xt xm' xt' l => @tp_Wt s u xm xt xm' xt' l) 0%N 3 b0 ss ok us bs xs.
  by apply: seq_lim_ext G => m; rewrite zip_inflate (map_zip _ us_ss).
move=> r [p i] [/= /path_of_seq h e].
by apply: lim_ext (fc _ _ i h) => m; rewrite -(e m); case: (r m).
Qed.

(** ** atp_csmc_f.py *)
Local Notation atp m := (atp_vec mu0 mut r0 rt g0 gt (inflate (kap m) s0) u0 (step_rvs0 mu0 eps (inflate (kap m) s0) u0) (step_rvs mut eps)).
Local Notation V0 := (al_G_0_tilde (@sizes_ld d) (@sizes_step d) r0 g0).
Local Notation Vt := (al_G_t_tilde (@sizes_ld d) (@sizes_step d) rt gt).
Local Notation Gam := (al_Gamma_t_tilde (@sizes_ld d) (@sizes_step d) rt gt).

Lemma ld_lim (s : R * R) (z : nat -> vec) z' : vlim z z' -> lim (fun m => sizes_ld s (z m)) (sizes_ld s z').
Proof. by move=> h; apply: lim_mul (lim_const _); apply: lim_opp; exact: lim_sqn. Qed.

Lemma atp_W0 (x : nat -> pop) y : cvpop x y -> forall l,
  lim (fun m => Gamma0 (atp m) (x m l) - M0_logpdf (atp m) (x m) l) (V0 (sizes s0) u0 y l).
Proof.
move=> xy l; have g := scale_lim (sizes s0) (g0c (xy l)).
have D := ld_lim (sizes s0) (vlim_sub (vlim_sub (vlim_const u0) (xy l)) g).
have M := vlim_sub (xy l) (mean_flat ok0 k0 kinf u0 (vlim_const mu0)).
have H := lim_sub (lim_add (lim_add (prior_flat ok0 k0 kinf (vlim_const mu0) (xy l)) (r0c (xy l))) D) (pld_flat ok0 k0 kinf M).
by rewrite add0r in H.
Qed.

Lemma atp_G (s : step) u (x y : nat -> vec) x' y' : step_ok s -> vlim x x' -> vlim y y' ->
  lim (fun m => Gammat (atp m) (x m) (y m) (u, inflate (kap m) s)) (Gam x' y' (sizes s, u, st_q s)).
Proof.
move=> oks xl yl; have g := scale_lim (sizes s) (@gtc (st_q s) _ _ _ _ xl yl).
have D := ld_lim (sizes s) (vlim_sub (vlim_sub (vlim_const u) yl) g).
have H := lim_add (lim_add (prior_t_flat oks xl yl) (@rtc (st_q s) _ _ _ _ xl yl)) D.
by rewrite add0r in H.
Qed.

Lemma atp_Wt (s : step) u (xm xt : nat -> pop) xm' xt' l : step_ok s -> cvpop xm xm' -> cvpop xt xt' ->
  lim (fun m => Gammat (atp m) (xm m l) (xt m l) (u, inflate (kap m) s) - Mt_logpdf (atp m) (xm m) (xt m) (u, inflate (kap m) s) l)
      (Vt xm' xt' (sizes s, u, st_q s) l).
Proof.
move=> oks xml xtl.
have M := vlim_sub (xtl l) (mean_flat oks k0 kinf u (@mutc (st_q s) _ _ (xml l))).
exact: (lim_sub (atp_G u oks (xml l) (xtl l)) (pld_flat oks k0 kinf M)).
Qed.

Lemma atp_Q (vs : seq vec) (tt : seq step) : (forall s, List.In s tt -> step_ok s) ->
  seq_lim (cvQ cvX (fun m => atp m) Gam) (fun m => zip vs [seq inflate (kap m) s | s <- tt])
    [seq (sizes p.2, p.1, st_q p.2) | p <- zip vs tt].
Proof.
elim: tt vs => [|s tt IH] [|v vs] okt //=.
eexists; eexists; split; [by move=> m; reflexivity| |by apply: IH => s' h; apply: okt; right].
exists (fun=> 0) => x x' y y' hx hy; have oks : step_ok s by apply: okt; left.
by apply: lim_ext (atp_G v oks hx hy) => m; rewrite addr0.
Qed.

Lemma zip_al : zip (zip [seq sizes s | s <- ss] us) [seq st_q s | s <- ss] = [seq (sizes p.2, p.1, st_q p.2) | p <- zip us ss].
Proof. by move: us us_ss; elim: ss => [|s tt IH] [|v vs] //= [e]; rewrite IH. Qed.

Theorem atp_flat (f : seq vec * seq 'I_n -> R) : path_cont f ->
  lim (fun m => E (drop_weights (kernel rs mv (atp m) key x0 xs b0 bs (zip us [seq inflate (kap m) s | s <- ss])
         (zip us [seq inflate (kap m) s | s <- ss]) backward true)) f)
      (E (drop_weights (al_sweep (@sizes_ld d) (@sizes_step d) r0 rt g0 gt rs mv key' b0 bs y0 ys u0 us (sizes s0) [seq sizes s | s <- ss]
         [seq st_q s | s <- ss] backward)) f).
Proof.
move=> fc; rewrite /al_sweep zip_al; have H := @kernel_lim vec cvX n' _ _ _ _ rs mv rsc mvc (fun m => atp m) (V0 (sizes s0) u0) Vt Gam key key' x0 xs b0 bs
  (fun m => zip us [seq inflate (kap m) s | s <- ss]) (fun m => zip us [seq inflate (kap m) s | s <- ss]) y0 ys
  [seq (sizes p.2, p.1, st_q p.2) | p <- zip us ss] [seq (sizes p.2, p.1, st_q p.2) | p <- zip us ss] backward.
apply: (H init_flat _ _ (atp_Q us ok) (fun=> f) f _); first by move=> x xl l; exact: atp_W0.
  have G := @in_lim_gen (vec * step) ((R * R) * vec * Q) (fun m => atp m) Vt (fun k u s => (u, inflate k s)) (fun u s => (sizes s, u, st_q s)) (fun=> erefl)
    (fun s u xm xt xm' xt' l => @atp_Wt s u xm xt xm' xt' l) 0%N 3 b0 ss ok us bs xs.
  by apply: seq_lim_ext G => m; rewrite zip_inflate.
move=> r [p i] [/= /path_of_seq h e].
by apply: lim_ext (fc _ _ i h) => m; rewrite -(e m); case: (r m).
Qed.
End Tp.
