(** * NanLFinal: the two models of l_csmc_f.py agree on finite numbers; undefined gradients;
    laws meeting the hypotheses of C92. *)
From Coq Require Import Reals Lra FunctionalExtensionality.
From mathcomp Require Import all_ssreflect all_algebra.
From Verif Require Import RInst Prog ProgTheory Resampling Spec ResamplingProofs Csmc CsmcInvariance AuxCsmc SweepTheory.
From Verif Require Import AuxProofs AuxFinal ProperProofs.
From Verif Require Import NanCsmc NanSpec NanNumbers NanProofs NanFinal NanAgree NanRw NanRwProofs NanRwFinal NanAl NanAlProofs NanAlFinal NanL.
From Verif Require Import NanSingleFail.

Set Implicit Arguments.
Unset Strict Implicit.
Unset Printing Implicit Defensive.
Import GRing.Theory Num.Theory Order.TTheory.
Local Open Scope ring_scope.

Section Agree.
Variables (X : finZmodType) (n' : nat) (Q setting : Type).
Local Notation n := n'.+1.
Local Notation pop := (pop X n').
Variables (noise : setting -> X -> R) (scale : setting -> X -> X) (logH : setting -> pop -> X -> X -> R) (rs : resampler n) (mv : mover n).
Variables (G0 : X -> R) (Gt : X -> X -> Q -> R) (g0 : X -> X) (gt : X -> X -> Q -> X).
Local Notation L0 := (fun x => Fin (G0 x)).
Local Notation Lt := (fun x y q => Fin (Gt x y q)).
Local Notation so0 := (fun x => Some (g0 x)).
Local Notation sot := (fun x y q => Some (gt x y q)).
Local Notation abody := (aux_body rs (@l_Gamma_t_tilde X n' Q setting scale logH Gt gt) (@minus_max n') (@normalize n)).

Lemma l_Gt_fin (xm xt : pop) p : xl_Gamma_t_tilde scale logH Lt sot xm xt p = (fun i => Fin (l_Gamma_t_tilde scale logH Gt gt xm xt p i)).
Proof. by []. Qed.

Lemma l_body_fin c i f :
  E (xl_body scale logH rs Lt sot (up_c c) i) f = E (abody c i) (fun r => f (Some (up_c r.1, up_o r.2))).
Proof.
case: c => w x; cbn [xl_body aux_body up_c fst snd]; rewrite E_obind on_weights_fin E_bind; apply: eq_E => A.
by cbn [E]; rewrite l_Gt_fin minus_max_fin normalize_fin.
Qed.

Lemma l_forward_fin key b0 bs y0 ys s0 ps f :
  E (xl_forward scale logH rs L0 Lt so0 sot key b0 bs y0 ys s0 ps) f
  = E (aux_forward rs (@l_Gamma_0_tilde X n' setting scale logH G0 g0 s0) (@l_Gamma_t_tilde X n' Q setting scale logH Gt gt)
        (@minus_max n') (@normalize n) key b0 bs y0 ys ps) (fun o => f (Some (up_f o))).
Proof.
rewrite /xl_forward /aux_forward E_obind E_bind.
have -> : xminus_max (xl_Gamma_0_tilde scale logH L0 so0 s0 y0) = up (minus_max (l_Gamma_0_tilde scale logH G0 g0 s0 y0)).
  by rewrite -minus_max_fin.
have := @E_oscan_scan _ _ _ _ _ _ abody (xl_body scale logH rs Lt sot) (@up_c X n') id (@up_o X n') l_body_fin.
move=> /(_ (sinputs ps ys b0 bs key 3) (normalize (minus_max (l_Gamma_0_tilde scale logH G0 g0 s0 y0)), y0)).
rewrite map_id /up_c /= normalize_fin => H; rewrite H.
by apply: eq_E => -[c outs].
Qed.

Definition l_finite_back (y : pop) : model X n' unit Q :=
  Model (fun _ => Ret y) (fun _ _ => 0) (fun _ => 0) (fun _ xm _ => Ret xm) (fun _ _ _ _ => 0) Gt.

Theorem l_agrees key x0 xs b0 bs s0 ss qs backward f :
  E (xl_kernel noise scale logH rs mv L0 Lt so0 sot key x0 xs b0 bs s0 ss qs backward) f
  = E (l_kernel noise scale logH rs mv G0 Gt g0 gt key x0 xs b0 bs s0 ss qs backward)
      (fun r => f (Some (r.1, [seq (fun i => Fin (lw i)) | lw <- r.2]))).
Proof.
rewrite /xl_kernel /l_kernel /l_forward [LHS]E_bind [RHS]E_bind [RHS]E_bind; apply: eq_E => -[e0 es].
cbv beta iota zeta; rewrite /xal_aux xgrad_auxE [LHS]E_bind [RHS]E_bind; apply: eq_E => -[p0 ps]; cbv beta iota zeta.
rewrite /xl_sweep E_obind l_forward_fin; apply: eq_E => o; cbn [E].
rewrite E_obind /aux_backward E_bind gens_fin.
have e : unzip1 (map (@up_g X n') (gens o)) = map (@up n') (unzip1 (gens o)) by rewrite /unzip1 -!map_comp.
have sam := @sampling_fin X n' unit _ mv (l_finite_back [ffun=> x0]).
by case: backward; rewrite ?(sam (split key 2)) ?scanning_fin; apply: eq_E => -[ys cs]; cbn [E]; rewrite e.
Qed.
End Agree.

(** ** Undefined gradients *)
Section Undefined.
Variables (X : finZmodType) (n' : nat) (Q setting : Type).
Local Notation n := n'.+1.
Local Notation pop := (pop X n').
Local Notation lwts := (xlwts n').
Variables (noise : setting -> X -> R) (scale : setting -> X -> X) (logH : setting -> pop -> X -> X -> R) (rs : resampler n) (mv : mover n).
Variables (L0 : X -> xnum) (Lt : X -> X -> Q -> xnum) (g0 : X -> option X) (gt : X -> X -> Q -> option X).
Hypothesis noise_pos : forall s z, 0 < noise s z.
Hypotheses (rs_good : good_resampler rs) (mv_proper : proper_mover mv).

Lemma l_scan_ge0 ins (l : lwts) (y : pop) F : (forall o, 0 <= F o) ->
  0 <= E (oscan (xl_body scale logH rs Lt gt) (xnormalize l, y) ins) F.
Proof.
elim: ins l y F => [|i ins IH] l y F F0; first exact: F0.
cbn [oscan xl_body]; rewrite E_obind E_obind E_on_weights; case e: (finite_weights _) => [v|]; last exact: F0.
apply: E_ge0 => [|A]; first by have [] := rs_good (s_key i) (fin_norm_prob e).
by cbn [E]; rewrite E_obind; apply: IH => -[[c o]|]; exact: F0.
Qed.

Lemma l_bwd_ge0 (G : X -> X -> Q -> xnum) ins x F : (forall o, 0 <= F o) ->
  0 <= E (oscan (@xbwd_body X n' _ G) x ins) F.
Proof.
elim: ins x F => [|[[[k xs] l] q] ins IH] x F F0; first exact: F0.
cbn [oscan xbwd_body]; rewrite E_obind E_obind E_on_weights; case e: (finite_weights _) => [v|]; last exact: F0.
apply: E_ge0 => [|B]; first by apply: proper_choice; exact: fin_norm_prob e.
by cbn [E]; rewrite E_obind; apply: IH => -[[c o]|]; exact: F0.
Qed.

Local Notation sweep := (xl_sweep scale logH rs mv L0 Lt g0 gt).

Lemma l_sweep_ge0 key b0 bs (y0 : pop) ys s0 ss qs backward F : (forall o, 0 <= F o) ->
  0 <= E (sweep key b0 bs y0 ys s0 ss qs backward) F.
Proof.
move=> F0; rewrite /xl_sweep E_obind /xl_forward E_obind; apply: l_scan_ge0 => -[[c outs]|]; last exact: F0.
cbn [E]; rewrite E_obind.
case: backward; rewrite /xbackward_sampling_pass /xbackward_scanning_pass; case: (xlast_gen _) => lT xT.
- rewrite E_obind E_on_weights; case e: (finite_weights _) => [v|]; last exact: F0.
  apply: E_ge0 => [|[B a]]; first exact: mv_proper (fin_norm_prob e).
  by rewrite E_obind; apply: l_bwd_ge0 => -[[x' o]|]; exact: F0.
- rewrite E_obind E_on_weights; case e: (finite_weights _) => [v|]; last exact: F0.
  apply: E_ge0 => [|[B a]]; first exact: mv_proper (fin_norm_prob e).
  by rewrite E_obind; apply: scan_ge0 => -[[x' o]|]; exact: F0.
Qed.

Lemma l_sweep_none key b0 bs (y0 : pop) ys s0 ss qs backward F i : g0 (y0 i) = None ->
  E (sweep key b0 bs y0 ys s0 ss qs backward) F = F None.
Proof.
move=> gi; rewrite /xl_sweep E_obind /xl_forward E_obind.
set lw := xminus_max _.
have nan : lw i = NaN.
  rewrite /lw /xminus_max /xl_Gamma_0_tilde /xl_H_phi gi /=.
  by case: (L0 (y0 i)).
have none : finite_weights (xnormalize lw) = None.
  by rewrite finite_normalize /usable; case: forallP => // /(_ i); rewrite nan.
case: (sinputs _ _ _ _ _ _) => [|a ins].
- cbn [oscan E]; rewrite E_obind.
  by case: backward; rewrite /xbackward_sampling_pass /xbackward_scanning_pass /=; rewrite E_obind E_on_weights none.
- by cbn [oscan xl_body]; rewrite E_obind E_obind E_on_weights none.
Qed.

Theorem l_undefined key x0 xs b0 bs s0 ss qs backward y i : i != b0 -> g0 y = None ->
  0 < Pr (xl_kernel noise scale logH rs mv L0 Lt g0 gt key x0 xs b0 bs s0 ss qs backward) (fun o => ~~ isSome o).
Proof.
move=> ib gy; rewrite /Pr /xl_kernel E_bind E_normals.
have inner e0 es : 0 < E (match xal_aux scale g0 gt x0 xs s0 ss qs e0 es with
   | Some (u0, us) => do (p0, ps) <- normals (split key 0) (iid (noise s0)) [seq iid (noise s) | s <- ss];
       sweep key b0 bs (mk_pop u0 p0 b0 x0) (mk_pops us ps bs xs) s0 ss qs backward
   | None => Ret None end) (fun o => (~~ isSome o)%:R : R).
  case: (xal_aux _ _ _ _ _ _ _ _ _ _) => [[u0 us]|]; last by rewrite /= ltr01.
  rewrite E_bind E_normals; have ip nu : List.In nu [seq iid (noise s) | s <- ss] -> forall z : pop, 0 < nu z.
    by move=> /List.in_map_iff [s [<- _]] z; exact: (iid_pos (n' := n') noise_pos).
  apply: (sum_pos_one (i := [ffun=> y - u0] : pop)) => [p|].
    apply: mulr_ge0; first exact: ltW (iid_pos noise_pos _ _).
    by apply: lsum_ge0 => // ps; apply: l_sweep_ge0 => o; exact: ler0n.
  apply: mulr_gt0; first exact: (iid_pos (n' := n') noise_pos).
  apply: (lsum_pos ([ffun=> 0] : pop)) => // ps.
  rewrite (@l_sweep_none _ _ _ _ _ _ _ _ _ _ i) ?ltr01 //.
  by rewrite /mk_pop /upd !ffunE (negbTE ib) ?ffunE [u0 + _]addrC subrK.
have np nu : List.In nu [seq noise s | s <- ss] -> forall z, 0 < nu z.
  by move=> /List.in_map_iff [s [<- _]] z.
apply: (sum_pos_one (i := 0)) => [e|].
  by apply: mulr_ge0; [exact: ltW|apply: lsum_ge0 => // es; exact: ltW (inner _ _)].
by apply: mulr_gt0 => //; apply: (lsum_pos (0 : X)) => // es; exact: inner.
Qed.
End Undefined.


Lemma l_zeros_met (X : finZmodType) (n' : nat) (setting : Type) (ld : setting -> X -> R) :
  let G0 := fun x : X => (x == 0)%:R : R in
  let Gt := fun (x y : X) (_ : unit) => (x == y)%:R : R in
  let L0 := fun x => if x == 0 then Fin 0 else NInf in
  let Lt := fun (x y : X) (_ : unit) => if x == y then Fin 0 else NInf in
  [/\ forall s, prob_vec (ex_noise ld s), forall s z, 0 < ex_noise ld s z,
      forall s, exists S : {ffun 'I_n'.+1 -> X} -> R, forall (x : {ffun 'I_n'.+1 -> X}) b phi,
        \sum_u ex_noise ld s (u - (x b + phi)) * \prod_(i | i != b) ex_noise ld s (x i - u)
        = S x * exp (ex_logH ld s x phi (x b)),
      (forall x, log_of (L0 x) (G0 x)) /\ (forall x y q, log_of (Lt x y q) (Gt x y q))
    & forall T, 0 < pot_target G0 Gt (nseq T tt) 0 (nseq T 0)].
Proof. by have [p1 p2 _ p3 p4] := al_zeros_met ld; split=> //; exact: ex_logH_ok. Qed.
