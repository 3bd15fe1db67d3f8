(** * NanAtpFinal: the two models of atp_csmc_f.py agree on finite numbers; undefined
    gradients; laws meeting the hypotheses of C93. *)
From Coq Require Import Reals Lra FunctionalExtensionality.
From mathcomp Require Import all_ssreflect all_algebra.
From Verif Require Import RInst Prog ProgTheory Resampling Spec ResamplingProofs Csmc CsmcInvariance AuxCsmc SweepTheory.
From Verif Require Import AuxProofs AuxFinal ProperProofs TpCsmc TpProofs.
From Verif Require Import NanCsmc NanSpec NanNumbers NanProofs NanFinal NanAgree NanRw NanRwProofs NanRwFinal NanAl NanAlProofs.
From Verif Require Import NanSingleFail NanAlFinal NanAtp NanAtpProofs.

Set Implicit Arguments.
Unset Strict Implicit.
Unset Printing Implicit Defensive.
Import GRing.Theory Num.Theory Order.TTheory.
Local Open Scope ring_scope.

Section Agree.
Variables (X : finZmodType) (n' : nat) (Q : Type).
Local Notation n := n'.+1.
Variables (noise0 ld0 : X -> R) (noise ld : Q -> X -> R).
Variables (scale0 : X -> X) (scale : Q -> X -> X).
Variables (pnoise0 pld0 : X -> R) (pnoise pld : Q -> X -> R).
Variables (mean0 : X -> X) (mean : Q -> X -> X -> X).
Variables (prior0 : X -> R) (prior : X -> X -> Q -> R).
Variables (r0 : X -> R) (rt : X -> X -> Q -> R).
Variables (g0 : X -> X) (gt : X -> X -> Q -> X) (rs : resampler n) (mv : mover n).

Theorem atp_agrees key x0 xs b0 bs qs backward f :
  E (xatp_kernel noise0 ld0 noise ld scale0 scale pnoise0 pld0 pnoise pld mean0 mean prior0 prior
       (fun x => Fin (r0 x)) (fun x y q => Fin (rt x y q)) (fun x => Some (g0 x)) (fun x y q => Some (gt x y q))
       rs mv key x0 xs b0 bs qs backward) f
  = E (atp_kernel noise0 ld0 noise ld scale0 scale pnoise0 pld0 pnoise pld mean0 mean prior0 prior r0 rt g0 gt
       rs mv key x0 xs b0 bs qs backward)
      (fun r => f (Some (r.1, [seq (fun i => Fin (lw i)) | lw <- r.2]))).
Proof.
rewrite /xatp_kernel /atp_kernel [LHS]E_bind [RHS]E_bind; apply: eq_E => -[e0 es].
rewrite /xatp_aux xgrad_auxE tp_aux_grad -agrees.
by [].
Qed.
End Agree.

Section AgreeTp.
Variables (X : finZmodType) (n' : nat) (Q : Type).
Local Notation n := n'.+1.
Local Notation pop := (pop X n').
Variables (noise0 : X -> R) (noise : Q -> X -> R).
Variables (scale0 : X -> X) (scale : Q -> X -> X).
Variables (pnoise0 : X -> R) (pnoise : Q -> X -> R).
Variables (mean0 : X -> X) (mean : Q -> X -> X -> X).
Variables (prior0 : X -> R) (prior : X -> X -> Q -> R).
Variables (r0 : X -> R) (rt : X -> X -> Q -> R).
Variables (g0 : X -> X) (gt : X -> X -> Q -> X) (rs : resampler n) (mv : mover n).
Variables (logH0 : pop -> X -> 'I_n -> R) (logH : Q -> pop -> pop -> X -> 'I_n -> R).

Theorem tp_agrees key x0 xs b0 bs qs backward f :
  E (xtp_kernel noise0 noise scale0 scale pnoise0 pnoise mean0 mean prior0 prior
       (fun x => Fin (r0 x)) (fun x y q => Fin (rt x y q)) (fun x => Some (g0 x)) (fun x y q => Some (gt x y q))
       logH0 logH rs mv key x0 xs b0 bs qs backward) f
  = E (tp_kernel noise0 noise scale0 scale pnoise0 pnoise mean0 mean prior0 prior r0 rt g0 gt logH0 logH
       rs mv key x0 xs b0 bs qs backward)
      (fun r => f (Some (r.1, [seq (fun i => Fin (lw i)) | lw <- r.2]))).
Proof.
rewrite /xtp_kernel /tp_kernel [LHS]E_bind [RHS]E_bind; apply: eq_E => -[e0 es].
rewrite /xatp_aux xgrad_auxE tp_aux_grad -agrees.
by [].
Qed.
End AgreeTp.

(** ** Undefined gradients *)
Section Undefined.
Variables (X : finZmodType) (n' : nat) (P Q : Type).
Local Notation n := n'.+1.
Local Notation pop := (pop X n').
Local Notation lwts := (xlwts n').
Variables (rs : resampler n) (mv : mover n) (md : xmodel X n' P Q).
Hypotheses (rs_good : good_resampler rs) (mv_proper : proper_mover mv).
Hypothesis Mt_proper : forall k xm p, proper (xMt_rvs md k xm p).

Lemma fin_exp_prob (l : lwts) v : finite_weights (fun i => xexp (xnormalize_log l i)) = Some v -> prob_vec v.
Proof. exact: fin_norm_prob. Qed.

Lemma xfwd_ge0 ins (l : lwts) (y : pop) F : (forall o, 0 <= F o) ->
  0 <= E (oscan (xfwd_body rs md true) (fun i => xexp (xnormalize_log l i), y) ins) F.
Proof.
elim: ins l y F => [|i ins IH] l y F F0; first exact: F0.
cbn [oscan xfwd_body]; rewrite E_obind E_obind E_on_weights; case e: (finite_weights _) => [v|]; last exact: F0.
apply: E_ge0 => [|A]; first by have [] := rs_good (split (xi_key i) 1) (fin_exp_prob e).
rewrite E_bind; apply: E_ge0 => // xt; cbn [E]; rewrite E_obind; apply: IH => -[[c o]|]; exact: F0.
Qed.

Lemma xbwd_ge0 (G : X -> X -> Q -> xnum) ins x F : (forall o, 0 <= F o) ->
  0 <= E (oscan (@xbwd_body X n' _ G) x ins) F.
Proof.
elim: ins x F => [|[[[k xs] l] q] ins IH] x F F0; first exact: F0.
cbn [oscan xbwd_body]; rewrite E_obind E_obind E_on_weights; case e: (finite_weights _) => [v|]; last exact: F0.
apply: E_ge0 => [|B]; first by apply: proper_choice; exact: fin_norm_prob e.
by cbn [E]; rewrite E_obind; apply: IH => -[[c o]|]; exact: F0.
Qed.

Lemma xkernel_pos key x0 xs b0 bs ps qs backward (y0 : pop) i :
  (forall F : pop -> R, (forall z, 0 <= F z) -> 0 < F y0 -> 0 < E (xM0_rvs md (split key 0)) F) ->
  i != b0 -> (forall y : pop, y i = y0 i -> xsub (xGamma0 md (y i)) (xM0_logpdf md y i) = NaN) ->
  0 < E (xkernel rs mv md key x0 xs b0 bs ps qs backward true) (fun o => (~~ isSome o)%:R : R).
Proof.
move=> reach ib gi; rewrite /xkernel E_obind /xforward_pass E_bind; apply: (reach) => [z|].
- rewrite E_obind; apply: xfwd_ge0 => -[[c outs]|]; last exact: ler0n.
  cbn [E]; rewrite E_obind.
  case: backward; rewrite /xbackward_sampling_pass /xbackward_scanning_pass; case: (xlast_gen _) => lT xT.
  + rewrite E_obind E_on_weights; case e: (finite_weights _) => [v|]; last exact: ler0n.
    apply: E_ge0 => [|[B a]]; first exact: mv_proper (fin_norm_prob e).
    by rewrite E_obind; apply: xbwd_ge0 => -[[x' o]|]; exact: ler0n.
  + rewrite E_obind E_on_weights; case e: (finite_weights _) => [v|]; last exact: ler0n.
    apply: E_ge0 => [|[B a]]; first exact: mv_proper (fin_norm_prob e).
    by rewrite E_obind; apply: scan_ge0 => -[[x' o]|]; exact: ler0n.
- cbv beta iota zeta; rewrite E_obind.
  set y := upd y0 b0 x0; set lw := xlog_w0 md y.
  have yi : y i = y0 i by rewrite /y /upd ffunE (negbTE ib).
  have bad : ~~ usable (fun i => xsub (xGamma0 md (y i)) (xM0_logpdf md y i)).
    by rewrite /usable; apply/nandP; left; apply/forallPn; exists i; rewrite gi.
  have none1 : finite_weights (fun l => xexp (lw l)) = None.
    have := finite_normalize (fun i => xsub (xGamma0 md (y i)) (xM0_logpdf md y i)).
    by rewrite (negbTE bad).
  have none2 : finite_weights (xnormalize lw) = None.
    by rewrite finite_normalize usable_normalize (negbTE bad).
  case: (xinputs _ _ _ _ _ _ _) => [|a ins].
  + cbn [oscan E]; rewrite E_obind.
    by case: backward; rewrite /xbackward_sampling_pass /xbackward_scanning_pass /=; rewrite E_obind E_on_weights none2 ltr01.
  + by cbn [oscan xfwd_body]; rewrite E_obind E_obind E_on_weights none1 ltr01.
Qed.
End Undefined.

Section AtpUndefined.
Variables (X : finZmodType) (n' : nat) (Q : Type).
Local Notation n := n'.+1.
Local Notation pop := (pop X n').
Variables (noise0 ld0 : X -> R) (noise ld : Q -> X -> R).
Variables (scale0 : X -> X) (scale : Q -> X -> X).
Variables (pnoise0 pld0 : X -> R) (pnoise pld : Q -> X -> R).
Variables (mean0 : X -> X) (mean : Q -> X -> X -> X).
Variables (prior0 : X -> R) (prior : X -> X -> Q -> R).
Variables (r0 : X -> xnum) (rt : X -> X -> Q -> xnum).
Variables (g0 : X -> option X) (gt : X -> X -> Q -> option X) (rs : resampler n) (mv : mover n).
Hypotheses (pnoise0P : prob_vec pnoise0) (pnoiseP : forall q, prob_vec (pnoise q)).
Hypotheses (noise0_pos : forall z, 0 < noise0 z) (noise_pos : forall q z, 0 < noise q z) (pnoise0_pos : forall z, 0 < pnoise0 z).
Hypotheses (rs_good : good_resampler rs) (mv_proper : proper_mover mv).

Theorem atp_undefined key x0 xs b0 bs qs backward y i : i != b0 -> g0 y = None ->
  0 < Pr (xatp_kernel noise0 ld0 noise ld scale0 scale pnoise0 pld0 pnoise pld mean0 mean prior0 prior r0 rt g0 gt
            rs mv key x0 xs b0 bs qs backward) (fun o => ~~ isSome o).
Proof.
move=> ib gy; rewrite /Pr /xatp_kernel E_bind E_normals.
have inner e0 es : 0 < E (match xatp_aux scale0 scale g0 gt x0 xs qs e0 es with
   | Some (u0, us) => xkernel rs mv (xatp_model n' ld0 ld scale0 scale pnoise0 pld0 pnoise pld mean0 mean prior0 prior r0 rt g0 gt u0)
       (split key 0) x0 xs b0 bs (zip us qs) (zip us qs) backward true
   | None => Ret None end) (fun o => (~~ isSome o)%:R : R).
  case: (xatp_aux _ _ _ _ _ _ _ _ _) => [[u0 us]|]; last by rewrite /= ltr01.
  refine (@xkernel_pos _ _ _ _ rs mv _ rs_good mv_proper _ _ _ _ _ _ _ _ _ [ffun=> y] i _ ib _).
  - by move=> k xm p; case: (Mt_indep mean pnoiseP k xm p).
  - move=> F F0 Fy; have [_ _ ->] := M0_indep n' mean0 pnoise0P u0 (split (split key 0) 0).
    apply: (sum_pos_one (i := [ffun=> y] : pop)) => [p|].
      by apply: mulr_ge0 => //; apply: prodr_ge0 => j _; exact: ltW.
    by apply: mulr_gt0 => //; apply: prodr_gt0.
  - by move=> z; rewrite ffunE => e; rewrite /= /xatp_Gamma_0 e gy; case: (r0 y).
have np nu : List.In nu [seq noise q | q <- qs] -> forall z, 0 < nu z.
  by move=> /List.in_map_iff [s [<- _]] z.
apply: (sum_pos_one (i := 0)) => [e|].
  by apply: mulr_ge0; [exact: ltW|apply: lsum_ge0 => // es; exact: ltW (inner _ _)].
by apply: mulr_gt0 => //; apply: (lsum_pos (0 : X)) => // es; exact: inner.
Qed.
End AtpUndefined.

Section TpUndefined.
Variables (X : finZmodType) (n' : nat) (Q : Type).
Local Notation n := n'.+1.
Local Notation pop := (pop X n').
Variables (noise0 : X -> R) (noise : Q -> X -> R).
Variables (scale0 : X -> X) (scale : Q -> X -> X).
Variables (pnoise0 : X -> R) (pnoise : Q -> X -> R).
Variables (mean0 : X -> X) (mean : Q -> X -> X -> X).
Variables (prior0 : X -> R) (prior : X -> X -> Q -> R).
Variables (r0 : X -> xnum) (rt : X -> X -> Q -> xnum).
Variables (g0 : X -> option X) (gt : X -> X -> Q -> option X) (rs : resampler n) (mv : mover n).
Variables (logH0 : pop -> X -> 'I_n -> R) (logH : Q -> pop -> pop -> X -> 'I_n -> R).
Hypotheses (pnoise0P : prob_vec pnoise0) (pnoiseP : forall q, prob_vec (pnoise q)).
Hypotheses (noise0_pos : forall z, 0 < noise0 z) (noise_pos : forall q z, 0 < noise q z) (pnoise0_pos : forall z, 0 < pnoise0 z).
Hypotheses (rs_good : good_resampler rs) (mv_proper : proper_mover mv).

Theorem tp_undefined key x0 xs b0 bs qs backward y i : i != b0 -> g0 y = None ->
  0 < Pr (xtp_kernel noise0 noise scale0 scale pnoise0 pnoise mean0 mean prior0 prior r0 rt g0 gt logH0 logH
            rs mv key x0 xs b0 bs qs backward) (fun o => ~~ isSome o).
Proof.
move=> ib gy; rewrite /Pr /xtp_kernel E_bind E_normals.
have inner e0 es : 0 < E (match xatp_aux scale0 scale g0 gt x0 xs qs e0 es with
   | Some (u0, us) => xkernel rs mv (xtp_model scale0 scale pnoise0 pnoise mean0 mean prior0 prior r0 rt g0 gt logH0 logH u0)
       (split key 0) x0 xs b0 bs (zip us qs) qs backward true
   | None => Ret None end) (fun o => (~~ isSome o)%:R : R).
  case: (xatp_aux _ _ _ _ _ _ _ _ _) => [[u0 us]|]; last by rewrite /= ltr01.
  refine (@xkernel_pos _ _ _ _ rs mv _ rs_good mv_proper _ _ _ _ _ _ _ _ _ [ffun=> y] i _ ib _).
  - by move=> k xm p; case: (Mt_indep mean pnoiseP k xm p).
  - move=> F F0 Fy; have [_ _ ->] := M0_indep n' mean0 pnoise0P u0 (split (split key 0) 0).
    apply: (sum_pos_one (i := [ffun=> y] : pop)) => [p|].
      by apply: mulr_ge0 => //; apply: prodr_ge0 => j _; exact: ltW.
    by apply: mulr_gt0 => //; apply: prodr_gt0.
  - by move=> z; rewrite ffunE => e; rewrite /= /xtp_Gamma_0 /xtp_M0_logpdf e gy; case: (r0 y).
have np nu : List.In nu [seq noise q | q <- qs] -> forall z, 0 < nu z.
  by move=> /List.in_map_iff [s [<- _]] z.
apply: (sum_pos_one (i := 0)) => [e|].
  by apply: mulr_ge0; [exact: ltW|apply: lsum_ge0 => // es; exact: ltW (inner _ _)].
by apply: mulr_gt0 => //; apply: (lsum_pos (0 : X)) => // es; exact: inner.
Qed.
End TpUndefined.

Lemma atp_zeros_met (X : finZmodType) (Q : Type) (ld : Q -> X -> R) (prior0 : X -> R) (prior : X -> X -> Q -> R) :
  let R0 := fun x : X => (x == 0)%:R : R in
  let Rt := fun (x y : X) (_ : Q) => (x == y)%:R : R in
  let r0 := fun x => if x == 0 then Fin 0 else NInf in
  let rt := fun (x y : X) (_ : Q) => if x == y then Fin 0 else NInf in
  [/\ forall q, prob_vec (ex_noise ld q), forall q z, 0 < ex_noise ld q z,
      forall q z, exp (ld q z) = (\sum_z exp (ld q z)) * ex_noise ld q z,
      (forall x, log_of (r0 x) (R0 x)) /\ (forall x y q, log_of (rt x y q) (Rt x y q))
    & forall qs, 0 < pot_target (fun x => exp (prior0 x) * R0 x) (fun x y q => exp (prior x y q) * Rt x y q)
                       qs 0 (nseq (size qs) 0)].
Proof.
move=> R0 Rt r0 rt; split.
- exact: ex_noise_prob.
- exact: ex_noise_gt0.
- by move=> s z; rewrite /ex_noise mulrCA divff ?mulr1 // lt0r_neq0 ?ex_total.
- by split=> [x|x y q]; rewrite /r0 /rt /R0 /Rt; case: eqP => //= _; rewrite exp_0.
- move=> qs; rewrite /pot_target; apply: mulr_gt0; first by rewrite /R0 eqxx mulr1 expR_gt0.
  by elim: qs => [|q qs IH] /=; rewrite ?ltr01 // /Rt eqxx mulr1; apply: mulr_gt0 => //; exact: expR_gt0.
Qed.
