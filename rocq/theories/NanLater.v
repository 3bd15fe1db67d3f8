(** * NanLater: undefined weights at later times in csmc.py, and undefined gradients at later times in the kernels
    that call it (C93, C95). *)
From Coq Require Import Reals Lra FunctionalExtensionality.
From mathcomp Require Import all_ssreflect all_algebra.
From Verif Require Import RInst Prog ProgTheory Resampling Spec ResamplingProofs Csmc CsmcInvariance AuxCsmc SweepTheory.
From Verif Require Import AuxProofs AuxFinal ProperProofs TpCsmc TpProofs TpFinal Twisted TwistedKernel.
From Verif Require Import NanCsmc NanSpec NanNumbers NanProofs NanFinal NanAgree NanRw NanRwProofs NanRwFinal NanAl NanAlProofs.
From Verif Require Import NanSingleFail NanAlFinal NanAtp NanAtpProofs NanAtpFinal NanTwisted.

Set Implicit Arguments.
Unset Strict Implicit.
Unset Printing Implicit Defensive.
Import GRing.Theory Num.Theory Order.TTheory.
Local Open Scope ring_scope.

Lemma E_gt0 A (m : prog A) (f : A -> R) : proper m -> (forall a, 0 < f a) -> 0 < E m f.
Proof.
move=> + f0; elim: m => [a|k B p g IH] /=; first by [].
move=> [p0 p1 pg]; have g0 b := IH b (pg b).
have t0 b : 0 <= p b * E (g b) f by apply: mulr_ge0 => //; exact: ltW.
rewrite lt0r sumr_ge0 // andbT; apply/eqP => z.
have := psumr_eq0P (fun b _ => t0 b) z => pz.
have : \sum_b p b = 0.
  apply: big1 => b _; apply/eqP; have /eqP := pz b isT; rewrite mulf_eq0 => /orP [//|].
  by move=> h; have := g0 b; rewrite (eqP h) ltxx.
by rewrite p1 => /eqP; rewrite oner_eq0.
Qed.

Section Later.
Variables (X : finZmodType) (n' : nat) (P Q : Type).
Local Notation n := n'.+1.
Local Notation pop := (pop X n').
Local Notation lwts := (xlwts n').
Variables (rs : resampler n) (mv : mover n) (md : xmodel X n' P Q).
Hypotheses (rs_good : good_resampler rs) (mv_proper : proper_mover mv).
Hypothesis M0_proper : forall k, proper (xM0_rvs md k).
Hypothesis Mt_proper : forall k xm p, proper (xMt_rvs md k xm p).
Variables (y0 : pop) (bp : P -> Q -> Prop).
Hypothesis reach : forall k xm p (F : pop -> R), (forall z, 0 <= F z) -> 0 < F y0 -> 0 < E (xMt_rvs md k xm p) F.
Hypothesis bad : forall p q, bp p q ->
  forall (xm y : pop) i, y i = y0 i -> xsub (xGammat md (xm i) (y i) q) (xMt_logpdf md xm y p i) = NaN.
Hypothesis two : (0 < n')%N.

Definition dead (lw : lwts) : Prop := finite_weights (xnormalize lw) = None.

Lemma dead_norm (l : lwts) : ~~ usable l -> dead (xnormalize_log l).
Proof. by move=> u; rewrite /dead finite_normalize usable_normalize (negbTE u). Qed.

Lemma other (b : 'I_n) : exists i : 'I_n, i != b.
Proof.
case: (eqVneq b ord0) => [->|ne]; last by exists ord0; rewrite eq_sym.
by exists ord_max; rewrite -val_eqE /= -lt0n.
Qed.

Lemma fwd_later ins (l : lwts) (y : pop) G : (forall o, 0 <= G o) -> 0 < G None ->
  (forall c outs, dead (last (xnormalize_log l) [seq o.1.1 | o <- outs]) -> 0 < G (Some (c, outs))) ->
  ~~ usable l \/ (exists i, List.In i ins /\ bp (xi_p i) (xi_q i)) ->
  0 < E (oscan (xfwd_body rs md true) (fun i => xexp (xnormalize_log l i), y) ins) G.
Proof.
elim: ins l y G => [|a ins IH] l y G G0 GN Gd h.
  by case: h => [u|[i [[]]]]; apply: Gd; exact: dead_norm.
cbn [oscan xfwd_body]; rewrite E_obind E_obind E_on_weights; case e: (finite_weights _) => [v|] //.
have us : usable l.
  by apply: contraPT e => u; have := finite_normalize l; rewrite (negbTE u) /xnormalize => ->.
case: h => [|[i [ii iq]]]; first by rewrite us.
apply: E_gt0 => [|A]; first by have [] := rs_good (split (xi_key a) 1) (fin_exp_prob e).
have step (z : pop) : ~~ usable (fun i => xsub (xGammat md (take_ax y A i) (upd z (xi_b a) (xi_x a) i) (xi_q a))
      (xMt_logpdf md (take_ax y A) (upd z (xi_b a) (xi_x a)) (xi_p a) i)) \/ (exists i, List.In i ins /\ bp (xi_p i) (xi_q i)) ->
    0 < E (oscan (xfwd_body rs md true) (fun i => xexp (xlog_wt md (take_ax y A) (upd z (xi_b a) (xi_x a)) (xi_p a) (xi_q a) i), upd z (xi_b a) (xi_x a)) ins)
      (fun o => if o is Some (c, os) then G (Some (c, (xlog_wt md (take_ax y A) (upd z (xi_b a) (xi_x a)) (xi_p a) (xi_q a), A, upd z (xi_b a) (xi_x a)) :: os)) else G None).
  by move=> h; apply: IH => // [[[c o]|]|c outs dd] //; exact: Gd.
rewrite E_bind; case: ii => [ea|ii].
- have iq' : bp (xi_p a) (xi_q a) by rewrite ea.
  apply: (reach) => [z|].
    by cbn [E]; rewrite E_obind; apply: xfwd_ge0 => // -[[c o]|] //=; exact: G0.
  cbn [E]; rewrite E_obind.
  refine (lt_le_trans (step y0 _) _); last by rewrite le_eqVlt; apply/orP; left; apply/eqP; apply: eq_E => -[[c o]|].
  left.
  have [j jb] := other (xi_b a).
  have yj : upd y0 (xi_b a) (xi_x a) j = y0 j by rewrite /upd ffunE (negbTE jb).
  by rewrite /usable; apply/nandP; left; apply/forallPn; exists j; rewrite (bad iq').
- apply: E_gt0 => // z; cbn [E]; rewrite E_obind.
  refine (lt_le_trans (step z _) _); last by rewrite le_eqVlt; apply/orP; left; apply/eqP; apply: eq_E => -[[c o]|].
  by right; exists i.
Qed.

Lemma in_inputs ps qs b bs k c xs p q : size ps = size qs -> size bs = size qs -> size xs = size qs ->
  List.In (p, q) (zip ps qs) -> bp p q ->
  exists i : xinp X n' P Q, List.In i (xinputs ps qs b bs k c xs) /\ bp (xi_p i) (xi_q i).
Proof.
elim: qs ps b bs c xs => [|q' qs IH] [|p' ps] b [|b' bs] c [|x xs] //= [s1] [s2] [s3] [[-> ->]|h] pq.
  by eexists; split; [left|].
by have [i [ii e]] := IH ps b' bs c.+1 xs s1 s2 s3 h pq; exists i; split=> //; right.
Qed.

Lemma last_fst (lw : lwts) (x : pop) (outs : seq (lwts * anc n' * pop)) :
  (xlast_gen (lw, x, outs)).1 = last lw [seq o.1.1 | o <- outs].
Proof. by rewrite /xlast_gen; elim: outs lw x => [|o os IH] lw x //=; rewrite IH. Qed.

Theorem xkernel_later key x0 xs b0 bs ps qs backward p q :
  size ps = size qs -> size bs = size qs -> size xs = size qs -> List.In (p, q) (zip ps qs) -> bp p q ->
  0 < E (xkernel rs mv md key x0 xs b0 bs ps qs backward true) (fun o => (~~ isSome o)%:R : R).
Proof.
move=> s1 s2 s3 iq pq; rewrite /xkernel E_obind /xforward_pass E_bind; apply: E_gt0 => // z.
rewrite E_obind; apply: fwd_later; last by right; exact: in_inputs iq pq.
- move=> [[c outs]|]; last exact: ler0n.
  cbn [E]; rewrite E_obind.
  case: backward; rewrite /xbackward_sampling_pass /xbackward_scanning_pass; case: (xlast_gen _) => lT xT.
  + rewrite E_obind E_on_weights; case e: (finite_weights _) => [v|]; last exact: ler0n.
    apply: E_ge0 => [|[B a]]; first exact: mv_proper (fin_norm_prob e).
    by rewrite E_obind; apply: xbwd_ge0 => -[[x' o]|]; exact: ler0n.
  + rewrite E_obind E_on_weights; case e: (finite_weights _) => [v|]; last exact: ler0n.
    apply: E_ge0 => [|[B a]]; first exact: mv_proper (fin_norm_prob e).
    by rewrite E_obind; apply: scan_ge0 => -[[x' o]|]; exact: ler0n.
- by rewrite ltr01.
- move=> c outs dd; cbn [E]; rewrite E_obind.
  have e : (xlast_gen (xlog_w0 md (upd z b0 x0), upd z b0 x0, outs)).1
      = last (xlog_w0 md (upd z b0 x0)) [seq o.1.1 | o <- outs].
    exact: last_fst.
  move: dd; rewrite /dead -/(xlog_w0 md (upd z b0 x0)) -e.
  case: backward; rewrite /xbackward_sampling_pass /xbackward_scanning_pass; case: (xlast_gen _) => lT xT /= dd;
    by rewrite E_obind E_on_weights dd ltr01.
Qed.
End Later.

(** ** Gradients *)
Section Kernels.
Variables (X : finZmodType) (n' : nat) (Q W : Type).
Local Notation n := n'.+1.
Local Notation pop := (pop X n').
Variables (noise0 ld0 : X -> R) (noise ld : Q -> X -> R).
Variables (scale0 : X -> X) (scale : Q -> X -> X).
Variables (r0 : X -> xnum) (rt : X -> X -> Q -> xnum).
Variables (g0 : X -> option X) (gt : X -> X -> Q -> option X) (rs : resampler n) (mv : mover n).
Hypotheses (noise0_pos : forall z, 0 < noise0 z) (noise_pos : forall q z, 0 < noise q z).
Hypotheses (rs_good : good_resampler rs) (mv_proper : proper_mover mv).
Hypothesis two : (0 < n')%N.

Lemma xgrad_aux_size xm xs qs es us : size xs = size qs -> size es = size qs ->
  xgrad_aux scale gt xm xs qs qs es = Some us -> size us = size qs.
Proof.
elim: qs xm xs es us => [|q qs IH] xm [|x xs] [|e es] us //=; first by move=> _ _ [<-].
move=> [s1] [s2]; case: (gt xm x q) => // g; case h: (xgrad_aux _ _ _ _ _ _ _) => [us'|] //= [<-].
by rewrite /= (IH _ _ _ _ s1 s2 h).
Qed.

Lemma xatp_aux_size x0 xs qs e0 es u0 us : size xs = size qs -> size es = size qs ->
  xatp_aux scale0 scale g0 gt x0 xs qs e0 es = Some (u0, us) -> size us = size qs.
Proof.
move=> s1 s2; rewrite /xatp_aux; case: (g0 x0) => // g; case h: (xgrad_aux _ _ _ _ _ _ _) => [us'|] // [_ <-].
exact: xgrad_aux_size h.
Qed.

Lemma normals_pos key (qs : seq Q) (f : X * seq X -> R) :
  (forall r, size r.2 = size qs -> 0 < f r) -> 0 < E (normals key noise0 [seq noise q | q <- qs]) f.
Proof.
move=> fp; rewrite E_normals.
have np nu : List.In nu [seq noise q | q <- qs] -> forall z, 0 < nu z.
  by move=> /List.in_map_iff [s [<- _]] z.
pose G e es := if size es == size qs then f (e, es) else 1.
have Gp e es : 0 < G e es by rewrite /G; case: eqP => [s|_]; [exact: fp|exact: ltr01].
have -> : \sum_x noise0 x * lsum [seq noise q | q <- qs] (fun es => f (x, es))
   = \sum_x noise0 x * lsum [seq noise q | q <- qs] (G x).
  apply: eq_bigr => x _; congr (_ * _); apply: eq_lsum_size => es; rewrite size_map => se.
  by rewrite /G se eqxx.
apply: (sum_pos_one (i := 0)) => [e|].
  by apply: mulr_ge0; [exact: ltW|apply: lsum_ge0 => // es; exact: ltW (Gp _ _)].
by apply: mulr_gt0 => //; apply: (lsum_pos (0 : X)).
Qed.

Section Proposals.
Variables (pnoise0 pld0 : X -> R) (pnoise pld : Q -> X -> R).
Variables (mean0 : X -> X) (mean : Q -> X -> X -> X).
Variables (prior0 : X -> R) (prior : X -> X -> Q -> R).
Variables (logH0 : pop -> X -> 'I_n -> R) (logH : Q -> pop -> pop -> X -> 'I_n -> R).
Hypotheses (pnoise0P : prob_vec pnoise0) (pnoiseP : forall q, prob_vec (pnoise q)) (pnoise_pos : forall q z, 0 < pnoise q z).

Lemma atp_reach y k (xm : pop) p (F : pop -> R) : (forall z, 0 <= F z) -> 0 < F [ffun=> y] -> 0 < E (atp_Mt_rvs pnoise mean k xm p) F.
Proof.
move=> F0 Fy; have [_ _ ->] := Mt_indep mean pnoiseP k xm p.
apply: (sum_pos_one (i := [ffun=> y] : pop)) => [z|].
  by apply: mulr_ge0 => //; apply: prodr_ge0 => j _; exact: ltW.
by apply: mulr_gt0 => //; apply: prodr_gt0.
Qed.

Theorem atp_later key x0 xs b0 bs qs backward y q : size xs = size qs -> size bs = size qs -> List.In q qs ->
  (forall x, gt x y q = None) ->
  0 < Pr (xatp_kernel noise0 ld0 noise ld scale0 scale pnoise0 pld0 pnoise pld mean0 mean prior0 prior r0 rt g0 gt
            rs mv key x0 xs b0 bs qs backward) (fun o => ~~ isSome o).
Proof.
move=> s1 s2 iq gy; rewrite /Pr /xatp_kernel E_bind; apply: normals_pos => -[e0 es] /= se.
case ea: (xatp_aux _ _ _ _ _ _ _ _ _) => [[u0 us]|]; last by rewrite /= ltr01.
have su := xatp_aux_size s1 se ea.
have sz : size (zip us qs) = size qs by rewrite size_zip su minnn.
have [u iu] : exists u, List.In (u, q, (u, q)) (zip (zip us qs) (zip us qs)).
  clear -su iq; elim: qs us su iq => [|q' qs' IH] [|u us'] //= [su] [->|iq]; first by exists u; left.
  by have [v iv] := IH us' su iq; exists v; right.
refine (@xkernel_later _ _ _ _ rs mv _ rs_good mv_proper _ _ [ffun=> y] (fun _ p => p.2 = q) _ _ two _ _ _ _ _ _ _ _ _ _ _ _ _ iu erefl); rewrite ?sz //.
- by move=> k; case: (M0_indep n' mean0 pnoise0P u0 k).
- by move=> k xm p; case: (Mt_indep mean pnoiseP k xm p).
- by move=> k xm p F; exact: atp_reach.
- by move=> p p' e' xm z i; rewrite ffunE => e; rewrite /= /xatp_Gamma_t /= e' e gy; case: (rt _ _ _).
Qed.

Theorem tp_later key x0 xs b0 bs qs backward y q : size xs = size qs -> size bs = size qs -> List.In q qs ->
  (forall x, gt x y q = None) ->
  0 < Pr (xtp_kernel noise0 noise scale0 scale pnoise0 pnoise mean0 mean prior0 prior r0 rt g0 gt logH0 logH
            rs mv key x0 xs b0 bs qs backward) (fun o => ~~ isSome o).
Proof.
move=> s1 s2 iq gy; rewrite /Pr /xtp_kernel E_bind; apply: normals_pos => -[e0 es] /= se.
case ea: (xatp_aux _ _ _ _ _ _ _ _ _) => [[u0 us]|]; last by rewrite /= ltr01.
have su := xatp_aux_size s1 se ea.
have sz : size (zip us qs) = size qs by rewrite size_zip su minnn.
have [u iu] : exists u, List.In (u, q, q) (zip (zip us qs) qs).
  clear -su iq; elim: qs us su iq => [|q' qs' IH] [|u us'] //= [su] [->|iq]; first by exists u; left.
  by have [v iv] := IH us' su iq; exists v; right.
refine (@xkernel_later _ _ _ _ rs mv _ rs_good mv_proper _ _ [ffun=> y] (fun p _ => p.2 = q) _ _ two _ _ _ _ _ _ _ _ _ _ _ _ _ iu erefl); rewrite ?sz //.
- by move=> k; case: (M0_indep n' mean0 pnoise0P u0 k).
- by move=> k xm p; case: (Mt_indep mean pnoiseP k xm p).
- by move=> k xm p F; exact: atp_reach.
- by move=> p p' e' xm z i; rewrite ffunE => e; rewrite /= /xtp_Gamma_t /xtp_Mt_logpdf /= e' e gy; case: (rt _ _ _).
Qed.
End Proposals.

Section Twisted.
Variable tparams : X -> seq X -> W * seq W.
Variables (law0 lpdf0 : W -> X -> R) (law lpdf : W -> X -> X -> R).
Hypotheses (law0P : forall w, prob_vec (law0 w)) (lawP : forall w x, prob_vec (law w x)) (law_pos : forall w x z, 0 < law w x z).

Theorem tw_later key x0 xs b0 bs qs backward y q : size xs = size qs -> size bs = size qs -> List.In q qs ->
  (forall u0 us, size us = size qs -> size (tparams u0 us).2 = size qs) ->
  (forall x, gt x y q = None) ->
  0 < Pr (xtw_kernel noise0 ld0 noise ld scale0 scale tparams law0 lpdf0 law lpdf r0 rt g0 gt
            rs mv key x0 xs b0 bs qs backward) (fun o => ~~ isSome o).
Proof.
move=> s1 s2 iq ts gy; rewrite /Pr /xtw_kernel E_bind; apply: normals_pos => -[e0 es] /= se.
case ea: (xatp_aux _ _ _ _ _ _ _ _ _) => [[u0 us]|]; last by rewrite /= ltr01.
have su := xatp_aux_size s1 se ea; have := ts u0 us su; case: (tparams u0 us) => w0 ws; rewrite [(w0, ws).2]/= => sw.
have sz : size (zip (zip us qs) ws) = size qs by rewrite !size_zip su sw !minnn.
have [u [w iu]] : exists u w, List.In (w, (u, q, w)) (zip ws (zip (zip us qs) ws)).
  clear -su sw iq; elim: qs us ws su sw iq => [|q' qs' IH] [|u us'] [|w ws'] //= [su] [sw] [->|iq]; first by exists u, w; left.
  by have [v [w' iv]] := IH us' ws' su sw iq; exists v, w'; right.
refine (@xkernel_later _ _ _ _ rs mv _ rs_good mv_proper _ _ [ffun=> y] (fun _ p => p.1.2 = q) _ _ two _ _ _ _ _ _ _ _ _ _ _ _ _ iu erefl); rewrite ?sz //.
- by move=> k; case: (tw_M0_indep n' law0P w0 k).
- by move=> k xm p; case: (tw_Mt_indep lawP k xm p).
- move=> k xm p F F0 Fy; have [_ _ ->] := tw_Mt_indep lawP k xm p.
  apply: (sum_pos_one (i := [ffun=> y] : pop)) => [z|].
    by apply: mulr_ge0 => //; apply: prodr_ge0 => j _; exact: ltW.
  by apply: mulr_gt0 => //; apply: prodr_gt0.
- by move=> p [[u1 q1] w1] /= -> xm z i; rewrite ffunE => e; rewrite /= e gy; case: (rt _ _ _).
Qed.
End Twisted.

End Kernels.
