(** * NanAtpSafe: atp_csmc_f.py and tp_csmc.py never meet undefined weights when the gradients are defined,
    whatever numbers their log-densities and corrections are (C93). *)
From Coq Require Import Reals Lra FunctionalExtensionality.
From mathcomp Require Import all_ssreflect all_algebra.
From Verif Require Import RInst Prog ProgTheory Resampling Spec ResamplingProofs Csmc CsmcInvariance AuxCsmc SweepTheory.
From Verif Require Import TpCsmc TpProofs TpFinal NanCsmc NanSpec NanNumbers NanProofs NanAl NanAlProofs NanAtp NanAtpProofs NanSafe.

Set Implicit Arguments.
Unset Strict Implicit.
Unset Printing Implicit Defensive.
Import GRing.Theory Num.Theory Order.TTheory.
Local Open Scope ring_scope.

Lemma log_fin a (y : R) : log_of a y -> fin a = (y != 0) /\ low a.
Proof. by case: a => //= [r <-|->]; rewrite ?eqxx // lt0r_neq0 //; exact: expR_gt0. Qed.

Section Paths.
Variables (X Q Q' : Type) (n' : nat) (P : Type) (md : xmodel X n' P Q').
Variables (G0 : X -> R) (Gt : X -> X -> Q -> R) (pr : Q' -> Q).
Hypotheses (fin0 : forall x, fin (xGamma0 md x) = (G0 x != 0))
  (fint : forall x y p, fin (xGammat md x y p) = (Gt x y (pr p) != 0)).

Lemma fpathE x xs ps : fpath md x xs ps <-> size xs = size ps /\ pot_path Gt x xs (map pr ps) != 0.
Proof.
elim: xs x ps => [|y xs IH] x [|p ps] /=; try by split=> [//|[]].
  by split=> // _; split=> //; rewrite oner_neq0.
rewrite mulf_eq0 negb_or fint IH; split=> [[-> [-> ->]] //|[[s] /andP [-> h]] //].
Qed.

Definition has_out (qs : seq Q) (o : option (seq X * seq 'I_n'.+1)) : Prop :=
  if o is Some (ys, cs) then
    exists y0 ys' c0 cs', [/\ ys = y0 :: ys', cs = c0 :: cs', size ys' = size qs, size cs' = size qs
                            & pot_target G0 Gt qs y0 ys' != 0]
  else False.

Lemma good_has ps o : good_out md ps o -> has_out (map pr ps) o.
Proof.
case: o => [[ys cs]|] //= [y0 [ys' [c0 [cs' [-> -> o0 /fpathE [s1 f] s2]]]]].
exists y0, ys', c0, cs'; rewrite size_map; split=> //.
by rewrite /pot_target mulf_neq0 // -fin0.
Qed.

Lemma start x0 xs qs ps : qs = map pr ps -> size xs = size qs -> 0 < pot_target G0 Gt qs x0 xs ->
  fin (xGamma0 md x0) /\ fpath md x0 xs ps.
Proof.
move=> ->; rewrite size_map => s /lt0r_neq0; rewrite /pot_target mulf_eq0 negb_or => /andP [a b].
by rewrite fin0 a; split=> //; apply/fpathE.
Qed.
End Paths.

Lemma has_out_Pr (X Q : Type) n' G0 (Gt : X -> X -> Q -> R) qs (m : prog (option (seq X * seq 'I_n'.+1))) :
  almost (has_out G0 Gt qs) m ->
  Pr m (fun o => if o is Some (y0 :: ys, _) then pot_target G0 Gt qs y0 ys == 0 else true) = 0.
Proof.
by move=> h; apply: almost_Pr; apply: almost_imp h => -[[ys cs]|] //= [y0 [ys' [c0 [cs' [-> _ _ _ ?]]]]].
Qed.

(** ** csmc.py *)
Section Csmc.
Variables (X : Type) (n' : nat) (P Q : Type) (md : xmodel X n' P Q) (G0 : X -> R) (Gt : X -> X -> Q -> R).
Local Notation n := n'.+1.
Variables (rs : resampler n) (mv : mover n).
Hypotheses (rs_good : good_resampler rs) (mv_good : good_mover mv) (mv_proper : proper_mover mv).
Hypotheses (M0_fin : forall x i, fin (xM0_logpdf md x i)) (Mt_fin : forall xm xt p i, fin (xMt_logpdf md xm xt p i)).
Hypotheses (log0 : forall x, log_of (xGamma0 md x) (G0 x)) (logt : forall x y q, log_of (xGammat md x y q) (Gt x y q)).

Lemma csmc_out key x0 xs b0 bs ps qs backward : size ps = size qs -> size xs = size qs -> size bs = size qs ->
  0 < pot_target G0 Gt qs x0 xs ->
  almost (has_out G0 Gt qs) (odrop (xkernel rs mv md key x0 xs b0 bs ps qs backward true)).
Proof.
move=> s1 s2 s3 pos.
have f0 x : fin (xGamma0 md x) = (G0 x != 0) by case: (log_fin (log0 x)).
have ft x y q : fin (xGammat md x y q) = (Gt x y (id q) != 0) by case: (log_fin (logt x y q)).
have [] := start (ps := qs) f0 ft _ s2 pos; first by rewrite map_id.
have l0 x : low (xGamma0 md x) by case: (log_fin (log0 x)).
have lt x y q : low (xGammat md x y q) by case: (log_fin (logt x y q)).
move=> o0 pth; have := @xkernel_safe _ _ _ _ md rs mv rs_good mv_good mv_proper M0_fin Mt_fin l0 lt key x0 xs b0 bs ps qs backward s1 s3 o0 pth.
by apply: almost_imp => o /(good_has f0 ft); rewrite map_id.
Qed.

Lemma csmc_result key x0 xs b0 bs ps qs backward : size ps = size qs -> size xs = size qs -> size bs = size qs ->
  0 < pot_target G0 Gt qs x0 xs ->
  Pr (odrop (xkernel rs mv md key x0 xs b0 bs ps qs backward true))
     (fun o => if o is Some (y0 :: ys, _) then pot_target G0 Gt qs y0 ys == 0 else true) = 0.
Proof. by move=> s1 s2 s3 pos; apply: has_out_Pr; exact: csmc_out. Qed.
End Csmc.

Lemma csmc_result_num (X : Type) (n' : nat) (P Q : Type) (md : xmodel X n' P Q) (G0 : X -> R) (Gt : X -> X -> Q -> R)
    (rs : resampler n'.+1) (mv : mover n'.+1) key x0 xs b0 bs ps qs backward :
  (forall x i, exists r, xM0_logpdf md x i = Fin r) -> (forall xm xt p i, exists r, xMt_logpdf md xm xt p i = Fin r) ->
  (forall x, log_of (xGamma0 md x) (G0 x)) -> (forall x y q, log_of (xGammat md x y q) (Gt x y q)) ->
  good_resampler rs -> good_mover mv -> proper_mover mv ->
  size ps = size qs -> size xs = size qs -> size bs = size qs -> 0 < pot_target G0 Gt qs x0 xs ->
  Pr (odrop (xkernel rs mv md key x0 xs b0 bs ps qs backward true))
     (fun o => if o is Some (y0 :: ys, _) then pot_target G0 Gt qs y0 ys == 0 else true) = 0.
Proof.
move=> m0 mt *; apply: csmc_result => //; first by move=> x i; have [r ->] := m0 x i.
by move=> xm xt p i; have [r ->] := mt xm xt p i.
Qed.

Section Both.
Variables (X : finZmodType) (n' : nat) (Q : Type).
Local Notation n := n'.+1.
Local Notation pop := {ffun 'I_n -> X}.
Variables (noise0 ld0 : X -> R) (noise ld : Q -> X -> R).
Variables (scale0 : X -> X) (scale : Q -> X -> X).
Variables (pnoise0 pld0 : X -> R) (pnoise pld : Q -> X -> R).
Variables (mean0 : X -> X) (mean : Q -> X -> X -> X).
Variables (prior0 : X -> R) (prior : X -> X -> Q -> R).
Variables (r0 : X -> xnum) (rt : X -> X -> Q -> xnum) (R0 : X -> R) (Rt : X -> X -> Q -> R).
Variables (g0 : X -> X) (gt : X -> X -> Q -> X) (rs : resampler n) (mv : mover n).
Variables (logH0 : pop -> X -> 'I_n -> R) (logH : Q -> pop -> pop -> X -> 'I_n -> R).
Hypotheses (r0_log : forall x, log_of (r0 x) (R0 x)) (rt_log : forall x y q, log_of (rt x y q) (Rt x y q)).
Hypotheses (rs_good : good_resampler rs) (mv_good : good_mover mv) (mv_proper : proper_mover mv).
Local Notation so0 := (fun x => Some (g0 x)).
Local Notation sot := (fun x y q => Some (gt x y q)).
Local Notation G0 := (fun x => exp (prior0 x) * R0 x).
Local Notation Gt := (fun x y q => exp (prior x y q) * Rt x y q).
Local Notation atp := (xatp_kernel noise0 ld0 noise ld scale0 scale pnoise0 pld0 pnoise pld mean0 mean prior0 prior r0 rt so0 sot rs mv).
Local Notation tp := (xtp_kernel noise0 noise scale0 scale pnoise0 pnoise mean0 mean prior0 prior r0 rt so0 sot logH0 logH rs mv).

Lemma prior_fin a (r y : R) : log_of a y -> fin (xadd (Fin r) a) = (exp r * y != 0) /\ low (xadd (Fin r) a).
Proof. by move=> h; apply: log_fin; exact: log_prior. Qed.

Lemma add_fin a (b : R) : fin (xadd a (Fin b)) = fin a /\ low (xadd a (Fin b)) = low a.
Proof. by case: a. Qed.

Lemma aux_some x0 xs qs e0 es : size xs = size qs -> size es = size qs ->
  exists u0 us, xatp_aux scale0 scale so0 sot x0 xs qs e0 es = Some (u0, us) /\ size us = size qs.
Proof.
move=> s1 s2; rewrite /xatp_aux xgrad_auxE -tp_aux_grad; eexists; eexists; split; first by [].
exact: tp_aux_size.
Qed.

Lemma atp_out key x0 xs b0 bs qs backward : size xs = size qs -> size bs = size qs ->
  0 < pot_target G0 Gt qs x0 xs -> almost (has_out G0 Gt qs) (odrop (atp key x0 xs b0 bs qs backward)).
Proof.
move=> s2 s3 pos; rewrite /odrop; apply/almost_bind; rewrite /xatp_kernel; apply/almost_bind; apply: always_almost.
apply: always_imp (@normals_size _ _ _ _) => -[e0 es]; rewrite size_map => se; simpl in se.
have [u0 [us [-> su]]] := aux_some x0 e0 s2 se.
set md := xatp_model _ _ _ _ _ _ _ _ _ _ _ _ _ _ _ _ _ u0.
have f0 x : fin (xGamma0 md x) = (G0 x != 0).
  by rewrite /md /= /xatp_Gamma_0 (proj1 (add_fin _ _)) (proj1 (prior_fin _ (r0_log x))).
have ft x y p : fin (xGammat md x y p) = (Gt x y p.2 != 0).
  by rewrite /md /= /xatp_Gamma_t (proj1 (add_fin _ _)) (proj1 (prior_fin _ (rt_log x y p.2))).
have ez : qs = map snd (zip us qs) by rewrite -/unzip2 unzip2_zip // su.
have sz : size (zip us qs) = size qs by rewrite size_zip su minnn.
have [o0 pth] := @start _ _ _ _ _ md G0 Gt snd f0 ft _ _ _ _ ez s2 pos.
have l0 x : low (xGamma0 md x).
  by rewrite /md /= /xatp_Gamma_0 (proj2 (add_fin _ _)) (proj2 (prior_fin _ (r0_log x))).
have lt x y p : low (xGammat md x y p).
  by rewrite /md /= /xatp_Gamma_t (proj2 (add_fin _ _)) (proj2 (prior_fin _ (rt_log x y p.2))).
have s3' : size bs = size (zip us qs) by rewrite sz.
have := @xkernel_safe _ _ _ _ md rs mv rs_good mv_good mv_proper (fun _ _ => erefl) (fun _ _ _ _ => erefl) l0 lt
  (split key 0) x0 xs b0 bs (zip us qs) (zip us qs) backward erefl s3' o0 pth.
rewrite /odrop => /almost_bind; apply: almost_imp => o /= h; rewrite ez; exact: (@good_has _ _ _ _ _ md G0 Gt snd f0 ft).
Qed.

Lemma tp_out key x0 xs b0 bs qs backward : size xs = size qs -> size bs = size qs ->
  0 < pot_target G0 Gt qs x0 xs -> almost (has_out G0 Gt qs) (odrop (tp key x0 xs b0 bs qs backward)).
Proof.
move=> s2 s3 pos; rewrite /odrop; apply/almost_bind; rewrite /xtp_kernel; apply/almost_bind; apply: always_almost.
apply: always_imp (@normals_size _ _ _ _) => -[e0 es]; rewrite size_map => se; simpl in se.
have [u0 [us [-> su]]] := aux_some x0 e0 s2 se.
have sz : size (zip us qs) = size qs by rewrite size_zip su minnn.
have := @csmc_out X n' _ _ (xtp_model scale0 scale pnoise0 pnoise mean0 mean prior0 prior r0 rt so0 sot logH0 logH u0) G0 Gt
  rs mv rs_good mv_good mv_proper (fun _ _ => erefl) (fun _ _ _ _ => erefl) (fun x => log_prior _ (r0_log x))
  (fun x y q => log_prior _ (rt_log x y q)) (split key 0) x0 xs b0 bs _ qs backward sz s2 s3 pos.
by rewrite /odrop => /almost_bind.
Qed.

Theorem atp_safe key x0 xs b0 bs qs backward : size xs = size qs -> size bs = size qs ->
  0 < pot_target G0 Gt qs x0 xs ->
  Pr (odrop (atp key x0 xs b0 bs qs backward))
     (fun o => if o is Some (y0 :: ys, _) then pot_target G0 Gt qs y0 ys == 0 else true) = 0.
Proof. by move=> s2 s3 pos; apply: has_out_Pr; exact: atp_out. Qed.

Theorem tp_safe key x0 xs b0 bs qs backward : size xs = size qs -> size bs = size qs ->
  0 < pot_target G0 Gt qs x0 xs ->
  Pr (odrop (tp key x0 xs b0 bs qs backward))
     (fun o => if o is Some (y0 :: ys, _) then pot_target G0 Gt qs y0 ys == 0 else true) = 0.
Proof. by move=> s2 s3 pos; apply: has_out_Pr; exact: tp_out. Qed.

Lemma target_pos qs y ys : pot_target G0 Gt qs y ys != 0 -> 0 < pot_target G0 Gt qs y ys.
Proof.
have ge a (r z : R) : log_of a z -> 0 <= exp r * z.
  by case: a => //= [s <-|->]; rewrite ?mulr0 // mulr_ge0 //; exact/ltW/expR_gt0.
move=> h; rewrite lt0r h /pot_target mulr_ge0 //; first exact: ge.
by elim: ys y qs {h} => [|z zs IH] y [|q qs] /=; rewrite ?ler01 //; apply: mulr_ge0; [exact: ge|exact: IH].
Qed.

Theorem atp_runs_safe qs backward keys x0 xs b0 bs : size xs = size qs -> size bs = size qs ->
  0 < pot_target G0 Gt qs x0 xs ->
  Pr (xatp_runs noise0 ld0 noise ld scale0 scale pnoise0 pld0 pnoise pld mean0 mean prior0 prior r0 rt so0 sot rs mv
        qs backward keys (x0 :: xs, b0 :: bs)) (fun o => ~~ isSome o) = 0.
Proof.
move=> s2 s3 pos; apply: almost_Pr.
elim: keys x0 xs b0 bs s2 s3 pos => [|k ks IH] x0 xs b0 bs s2 s3 pos //.
cbn [xatp_runs]; apply: almost_obind; have := atp_out k b0 backward s2 s3 pos.
rewrite /odrop => /almost_bind; apply: almost_imp => -[[[ys cs] W]|] //= [y0 [ys' [c0 [cs' [-> -> s4 s5 nz]]]]].
by apply: IH => //; exact: target_pos.
Qed.

Theorem tp_runs_safe qs backward keys x0 xs b0 bs : size xs = size qs -> size bs = size qs ->
  0 < pot_target G0 Gt qs x0 xs ->
  Pr (xtp_runs noise0 noise scale0 scale pnoise0 pnoise mean0 mean prior0 prior r0 rt so0 sot logH0 logH rs mv
        qs backward keys (x0 :: xs, b0 :: bs)) (fun o => ~~ isSome o) = 0.
Proof.
move=> s2 s3 pos; apply: almost_Pr.
elim: keys x0 xs b0 bs s2 s3 pos => [|k ks IH] x0 xs b0 bs s2 s3 pos //.
cbn [xtp_runs]; apply: almost_obind; have := tp_out k b0 backward s2 s3 pos.
rewrite /odrop => /almost_bind; apply: almost_imp => -[[[ys cs] W]|] //= [y0 [ys' [c0 [cs' [-> -> s4 s5 nz]]]]].
by apply: IH => //; exact: target_pos.
Qed.
End Both.
