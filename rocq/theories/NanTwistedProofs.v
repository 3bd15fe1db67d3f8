(** * NanTwistedProofs: t_atp_csmc_f.py on targets with zeros (C95). *)
From Coq Require Import Reals Lra FunctionalExtensionality.
From mathcomp Require Import all_ssreflect all_algebra.
From Verif Require Import RInst Prog ProgTheory Resampling Spec ResamplingProofs Csmc CsmcInvariance AuxCsmc SweepTheory AuxProofs AuxFinal.
From Verif Require Import TpCsmc TpProofs TpFinal Twisted TwistedKernel NanCsmc NanSpec NanNumbers NanProofs NanFinal NanAgree NanRw NanRwProofs.
From Verif Require Import NanRwFinal NanSingleFail NanAl NanAlProofs NanAlFinal NanAtp NanAtpProofs NanAtpFinal NanSafe NanAtpSafe NanTwisted.

Set Implicit Arguments.
Unset Strict Implicit.
Unset Printing Implicit Defensive.
Import GRing.Theory Num.Theory Order.TTheory.
Local Open Scope ring_scope.

(** ** Without zeros *)
Section Agree.
Variables (X : finZmodType) (n' : nat) (Q W : Type).
Local Notation n := n'.+1.
Variables (noise0 ld0 : X -> R) (noise ld : Q -> X -> R).
Variables (scale0 : X -> X) (scale : Q -> X -> X).
Variable tparams : X -> seq X -> W * seq W.
Variables (law0 lpdf0 : W -> X -> R) (law lpdf : W -> X -> X -> R).
Variables (r0 : X -> R) (rt : X -> X -> Q -> R) (g0 : X -> X) (gt : X -> X -> Q -> X).
Variables (rs : resampler n) (mv : mover n).

Theorem tw_agrees key x0 xs b0 bs qs backward f :
  E (xtw_kernel noise0 ld0 noise ld scale0 scale tparams law0 lpdf0 law lpdf (fun x => Fin (r0 x)) (fun x y q => Fin (rt x y q))
       (fun x => Some (g0 x)) (fun x y q => Some (gt x y q)) rs mv key x0 xs b0 bs qs backward) f
  = E (tw_kernel noise0 ld0 noise ld scale0 scale tparams law0 lpdf0 law lpdf r0 rt g0 gt rs mv key x0 xs b0 bs qs backward)
      (fun r => f (Some (r.1, [seq (fun i => Fin (lw i)) | lw <- r.2]))).
Proof.
rewrite /xtw_kernel /tw_kernel [LHS]E_bind [RHS]E_bind; apply: eq_E => -[e0 es].
rewrite /xatp_aux xgrad_auxE tw_aux_grad; case: (tparams _ _) => w0 ws; rewrite -agrees.
set u0 := x0 + _ + _.
have -> // : xtw_model n' ld0 ld scale0 scale law0 lpdf0 law lpdf (fun x => Fin (r0 x)) (fun x y q => Fin (rt x y q))
    (fun x => Some (g0 x)) (fun x y q => Some (gt x y q)) w0 u0
  = finite_model (tw_model n' ld0 ld scale0 scale law0 lpdf0 law lpdf r0 rt g0 gt w0 u0).
rewrite /xtw_model /finite_model; congr XModel.
by do 2 apply: functional_extensionality => ?; apply: functional_extensionality => -[[u q] w].
Qed.
End Agree.

(** ** Results, whatever the densities *)
Section Safe.
Variables (X : finZmodType) (n' : nat) (Q W : Type).
Local Notation n := n'.+1.
Variables (noise0 ld0 : X -> R) (noise ld : Q -> X -> R).
Variables (scale0 : X -> X) (scale : Q -> X -> X).
Variable tparams : X -> seq X -> W * seq W.
Variables (law0 lpdf0 : W -> X -> R) (law lpdf : W -> X -> X -> R).
Variables (r0 : X -> xnum) (rt : X -> X -> Q -> xnum) (R0 : X -> R) (Rt : X -> X -> Q -> R).
Variables (g0 : X -> X) (gt : X -> X -> Q -> X) (rs : resampler n) (mv : mover n).
Variable qs : seq Q.
Hypothesis tsize : forall u0 us, size us = size qs -> size (tparams u0 us).2 = size qs.
Hypotheses (r0_log : forall x, log_of (r0 x) (R0 x)) (rt_log : forall x y q, log_of (rt x y q) (Rt x y q)).
Hypotheses (rs_good : good_resampler rs) (mv_good : good_mover mv) (mv_proper : proper_mover mv).
Local Notation so0 := (fun x => Some (g0 x)).
Local Notation sot := (fun x y q => Some (gt x y q)).
Local Notation tw := (xtw_kernel noise0 ld0 noise ld scale0 scale tparams law0 lpdf0 law lpdf r0 rt so0 sot rs mv).

Lemma tw_out key x0 xs b0 bs backward : size xs = size qs -> size bs = size qs ->
  0 < pot_target R0 Rt qs x0 xs -> almost (has_out R0 Rt qs) (odrop (tw key x0 xs b0 bs qs backward)).
Proof.
move=> s2 s3 pos; rewrite /odrop; apply/almost_bind; rewrite /xtw_kernel; apply/almost_bind; apply: always_almost.
apply: always_imp (@normals_size _ _ _ _) => -[e0 es]; rewrite size_map => se; simpl in se.
have [u0 [us [-> su]]] := aux_some scale0 scale g0 gt x0 e0 s2 se.
have := tsize u0 su; case: (tparams u0 us) => w0 ws /= sw.
set md := xtw_model _ _ _ _ _ _ _ _ _ _ _ _ _ w0 u0.
have f0 x : fin (xGamma0 md x) = (R0 x != 0).
  by rewrite /md /= /xtw_Gamma_0 (proj1 (add_fin _ _)) (proj1 (log_fin (r0_log x))).
have ft x y p : fin (xGammat md x y p) = (Rt x y p.1.2 != 0).
  by case: p => [[u q] w]; rewrite /md /= (proj1 (add_fin _ _)) (proj1 (log_fin (rt_log x y q))).
set ps := zip (zip us qs) ws.
have ez : qs = map (fun p => p.1.2) ps.
  rewrite (map_comp snd fst) -/unzip1 unzip1_zip ?size_zip ?su ?sw ?minnn //.
  by rewrite -/unzip2 unzip2_zip // su.
have sz : size ps = size qs by rewrite !size_zip su sw !minnn.
have [o0 pth] := @start _ _ _ _ _ md R0 Rt (fun p => p.1.2) f0 ft _ _ _ _ ez s2 pos.
have l0 x : low (xGamma0 md x).
  by rewrite /md /= /xtw_Gamma_0 (proj2 (add_fin _ _)) (proj2 (log_fin (r0_log x))).
have lt x y p : low (xGammat md x y p).
  by case: p => [[u q] w]; rewrite /md /= (proj2 (add_fin _ _)) (proj2 (log_fin (rt_log x y q))).
have s3' : size bs = size ps by rewrite sz.
have s4 : size ws = size ps by rewrite sz.
have := @xkernel_safe _ _ _ _ md rs mv rs_good mv_good mv_proper (fun _ _ => erefl) (fun _ _ _ _ => erefl) l0 lt
  (split key 0) x0 xs b0 bs ws ps backward s4 s3' o0 pth.
rewrite /odrop => /almost_bind; apply: almost_imp => o /= h; rewrite ez; exact: (@good_has _ _ _ _ _ md R0 Rt (fun p => p.1.2) f0 ft).
Qed.

Theorem tw_safe key x0 xs b0 bs backward : size xs = size qs -> size bs = size qs ->
  0 < pot_target R0 Rt qs x0 xs ->
  Pr (odrop (tw key x0 xs b0 bs qs backward))
     (fun o => if o is Some (y0 :: ys, _) then pot_target R0 Rt qs y0 ys == 0 else true) = 0.
Proof. by move=> s2 s3 pos; apply: has_out_Pr; exact: tw_out. Qed.

Lemma pot_pos ps y ys : pot_target R0 Rt ps y ys != 0 -> 0 < pot_target R0 Rt ps y ys.
Proof.
have ge a (z : R) : log_of a z -> 0 <= z by case: a => //= [s <-|-> //]; exact/ltW/expR_gt0.
move=> h; rewrite lt0r h /pot_target mulr_ge0 //; first exact: ge (r0_log y).
by elim: ys y ps {h} => [|z zs IH] y [|q qs0] /=; rewrite ?ler01 //; apply: mulr_ge0; [exact: ge (rt_log _ _ _)|exact: IH].
Qed.

Theorem tw_runs_safe backward keys x0 xs b0 bs : size xs = size qs -> size bs = size qs ->
  0 < pot_target R0 Rt qs x0 xs ->
  Pr (xtw_runs noise0 ld0 noise ld scale0 scale tparams law0 lpdf0 law lpdf r0 rt so0 sot rs mv
        qs backward keys (x0 :: xs, b0 :: bs)) (fun o => ~~ isSome o) = 0.
Proof.
move=> s2 s3 pos; apply: almost_Pr.
elim: keys x0 xs b0 bs s2 s3 pos => [|k ks IH] x0 xs b0 bs s2 s3 pos //.
cbn [xtw_runs]; apply: almost_obind; have := tw_out k b0 backward s2 s3 pos.
rewrite /odrop => /almost_bind; apply: almost_imp => -[[[ys cs] V]|] //= [y0 [ys' [c0 [cs' [-> -> s4 s5 nz]]]]].
by apply: IH => //; exact: pot_pos.
Qed.
End Safe.

(** ** Undefined gradients *)
Section Undefined.
Variables (X : finZmodType) (n' : nat) (Q W : Type).
Local Notation n := n'.+1.
Local Notation pop := (pop X n').
Variables (noise0 ld0 : X -> R) (noise ld : Q -> X -> R).
Variables (scale0 : X -> X) (scale : Q -> X -> X).
Variable tparams : X -> seq X -> W * seq W.
Variables (law0 lpdf0 : W -> X -> R) (law lpdf : W -> X -> X -> R).
Variables (r0 : X -> xnum) (rt : X -> X -> Q -> xnum).
Variables (g0 : X -> option X) (gt : X -> X -> Q -> option X) (rs : resampler n) (mv : mover n).
Hypotheses (law0P : forall w, prob_vec (law0 w)) (lawP : forall w x, prob_vec (law w x)).
Hypotheses (noise0_pos : forall z, 0 < noise0 z) (noise_pos : forall q z, 0 < noise q z) (law0_pos : forall w z, 0 < law0 w z).
Hypotheses (rs_good : good_resampler rs) (mv_proper : proper_mover mv).

Theorem tw_undefined key x0 xs b0 bs qs backward y i : i != b0 -> g0 y = None ->
  0 < Pr (xtw_kernel noise0 ld0 noise ld scale0 scale tparams law0 lpdf0 law lpdf r0 rt g0 gt
            rs mv key x0 xs b0 bs qs backward) (fun o => ~~ isSome o).
Proof.
move=> ib gy; rewrite /Pr /xtw_kernel E_bind E_normals.
have inner e0 es : 0 < E (match xatp_aux scale0 scale g0 gt x0 xs qs e0 es with
   | Some (u0, us) => let: (w0, ws) := tparams u0 us in
       xkernel rs mv (xtw_model n' ld0 ld scale0 scale law0 lpdf0 law lpdf r0 rt g0 gt w0 u0)
       (split key 0) x0 xs b0 bs ws (zip (zip us qs) ws) backward true
   | None => Ret None end) (fun o => (~~ isSome o)%:R : R).
  case: (xatp_aux _ _ _ _ _ _ _ _ _) => [[u0 us]|]; last by rewrite /= ltr01.
  case: (tparams u0 us) => w0 ws.
  refine (@xkernel_pos _ _ _ _ rs mv _ rs_good mv_proper _ _ _ _ _ _ _ _ _ [ffun=> y] i _ ib _).
  - by move=> k xm p; case: (tw_Mt_indep lawP k xm p).
  - move=> F F0 Fy; have [_ _ ->] := tw_M0_indep n' law0P w0 (split (split key 0) 0).
    apply: (sum_pos_one (i := [ffun=> y] : pop)) => [p|].
      by apply: mulr_ge0 => //; apply: prodr_ge0 => j _; exact: ltW.
    by apply: mulr_gt0 => //; apply: prodr_gt0.
  - by move=> z; rewrite ffunE => e; rewrite /= /xtw_Gamma_0 e gy; case: (r0 y).
have np nu : List.In nu [seq noise q | q <- qs] -> forall z, 0 < nu z.
  by move=> /List.in_map_iff [s [<- _]] z.
apply: (sum_pos_one (i := 0)) => [e|].
  by apply: mulr_ge0; [exact: ltW|apply: lsum_ge0 => // es; exact: ltW (inner _ _)].
by apply: mulr_gt0 => //; apply: (lsum_pos (0 : X)) => // es; exact: inner.
Qed.
End Undefined.
