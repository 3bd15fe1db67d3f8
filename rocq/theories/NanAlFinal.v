(** * NanAlFinal: the two models of al_csmc_f.py agree on finite numbers; undefined
    gradients; laws meeting the hypotheses of C91. *)
From Coq Require Import Reals Lra FunctionalExtensionality.
From mathcomp Require Import all_ssreflect all_algebra.
From Verif Require Import RInst Prog ProgTheory Resampling Spec ResamplingProofs Csmc CsmcInvariance AuxCsmc SweepTheory.
From Verif Require Import AuxProofs AuxFinal ProperProofs.
From Verif Require Import NanCsmc NanSpec NanNumbers NanProofs NanFinal NanAgree NanRw NanRwProofs NanRwFinal NanAl NanAlProofs.
From Verif Require Import NanSingleFail.

Set Implicit Arguments.
Unset Strict Implicit.
Unset Printing Implicit Defensive.
Import GRing.Theory Num.Theory Order.TTheory.
Local Open Scope ring_scope.

Section Agree.
Variables (X : finZmodType) (n' : nat) (Q setting : Type).
Local Notation n := n'.+1.
Local Notation pop := (pop X n').
Variables (noise ld : setting -> X -> R) (scale : setting -> X -> X) (rs : resampler n) (mv : mover n).
Variables (G0 : X -> R) (Gt : X -> X -> Q -> R) (g0 : X -> X) (gt : X -> X -> Q -> X).
Local Notation L0 := (fun x => Fin (G0 x)).
Local Notation Lt := (fun x y q => Fin (Gt x y q)).
Local Notation so0 := (fun x => Some (g0 x)).
Local Notation sot := (fun x y q => Some (gt x y q)).
Local Notation abody := (aux_body rs (@al_G_t_tilde X n' Q setting ld scale Gt gt) (@minus_max n') (@normalize n)).

Lemma minus_max_fin (lw : 'I_n -> R) : xminus_max (fun i => Fin (lw i)) = up (minus_max lw).
Proof. by rewrite /xminus_max amax_fin. Qed.

Lemma al_Gt_fin (xm xt : pop) p : xal_G_t_tilde ld scale Lt sot xm xt p = (fun i => Fin (al_G_t_tilde ld scale Gt gt xm xt p i)).
Proof. by case: p => [[s u] q]. Qed.

Lemma al_body_fin c i f :
  E (xal_body ld scale rs Lt sot (up_c c) i) f = E (abody c i) (fun r => f (Some (up_c r.1, up_o r.2))).
Proof.
case: c => w x; cbn [xal_body aux_body up_c fst snd]; rewrite E_obind on_weights_fin E_bind; apply: eq_E => A.
by cbn [E]; rewrite al_Gt_fin minus_max_fin normalize_fin.
Qed.

Lemma al_forward_fin key b0 bs y0 ys u0 s0 ps f :
  E (xal_forward ld scale rs L0 Lt so0 sot key b0 bs y0 ys u0 s0 ps) f
  = E (aux_forward rs (@al_G_0_tilde X n' setting ld scale G0 g0 s0 u0) (@al_G_t_tilde X n' Q setting ld scale Gt gt)
        (@minus_max n') (@normalize n) key b0 bs y0 ys ps) (fun o => f (Some (up_f o))).
Proof.
rewrite /xal_forward /aux_forward E_obind E_bind.
have -> : xminus_max (xal_G_0_tilde ld scale L0 so0 s0 u0 y0) = up (minus_max (al_G_0_tilde ld scale G0 g0 s0 u0 y0)).
  by rewrite -minus_max_fin.
have := @E_oscan_scan _ _ _ _ _ _ abody (xal_body ld scale rs Lt sot) (@up_c X n') id (@up_o X n') al_body_fin.
move=> /(_ (sinputs ps ys b0 bs key 3) (normalize (minus_max (al_G_0_tilde ld scale G0 g0 s0 u0 y0)), y0)).
rewrite map_id /up_c /= normalize_fin => H; rewrite H.
by apply: eq_E => -[c outs].
Qed.

Definition al_back_model (y : pop) : model X n' unit (setting * X * Q) :=
  Model (fun _ => Ret y) (fun _ _ => 0) (fun _ => 0) (fun _ xm _ => Ret xm) (fun _ _ _ _ => 0) (al_Gamma_t_tilde ld scale Gt gt).

Theorem al_agrees key x0 xs b0 bs s0 ss qs backward f :
  E (xal_kernel noise ld scale rs mv L0 Lt so0 sot key x0 xs b0 bs s0 ss qs backward) f
  = E (al_kernel noise ld scale rs mv G0 Gt g0 gt key x0 xs b0 bs s0 ss qs backward)
      (fun r => f (Some (r.1, [seq (fun i => Fin (lw i)) | lw <- r.2]))).
Proof.
rewrite /xal_kernel /al_kernel /al_forward [LHS]E_bind [RHS]E_bind [RHS]E_bind; apply: eq_E => -[e0 es].
cbv beta iota zeta; rewrite /xal_aux xgrad_auxE [LHS]E_bind [RHS]E_bind; apply: eq_E => -[p0 ps]; cbv beta iota zeta.
rewrite /xal_sweep E_obind al_forward_fin [RHS]E_bind; apply: eq_E => o; cbn [E].
rewrite E_obind /aux_backward E_bind gens_fin.
have e : unzip1 (map (@up_g X n') (gens o)) = map (@up n') (unzip1 (gens o)) by rewrite /unzip1 -!map_comp.
have eG : xal_Gamma_t_tilde ld scale Lt sot = xGammat (finite_model (al_back_model [ffun=> x0])).
  by apply: functional_extensionality => a; apply: functional_extensionality => b;
     apply: functional_extensionality => -[[s u] q].
have sam := @sampling_fin X n' unit _ mv (al_back_model [ffun=> x0]).
by case: backward; rewrite ?eG ?(sam (split key 2)) ?scanning_fin; apply: eq_E => -[ys cs]; cbn [E]; rewrite e.
Qed.
End Agree.

(** ** Undefined gradients *)
Section Undefined.
Variables (X : finZmodType) (n' : nat) (Q setting : Type).
Local Notation n := n'.+1.
Local Notation pop := (pop X n').
Local Notation lwts := (xlwts n').
Variables (noise ld : setting -> X -> R) (scale : setting -> X -> X) (rs : resampler n) (mv : mover n).
Variables (L0 : X -> xnum) (Lt : X -> X -> Q -> xnum) (g0 : X -> option X) (gt : X -> X -> Q -> option X).
Hypothesis noise_pos : forall s z, 0 < noise s z.
Hypotheses (rs_good : good_resampler rs) (mv_proper : proper_mover mv).

Lemma fin_norm_prob (l : lwts) v : finite_weights (xnormalize l) = Some v -> prob_vec v.
Proof. by rewrite finite_normalize; case: ifP => // u [<-]; exact: wnorm_prob. Qed.

Lemma al_scan_ge0 ins (l : lwts) (y : pop) F : (forall o, 0 <= F o) ->
  0 <= E (oscan (xal_body ld scale rs Lt gt) (xnormalize l, y) ins) F.
Proof.
elim: ins l y F => [|i ins IH] l y F F0; first exact: F0.
cbn [oscan xal_body]; rewrite E_obind E_obind E_on_weights; case e: (finite_weights _) => [v|]; last exact: F0.
apply: E_ge0 => [|A]; first by have [] := rs_good (s_key i) (fin_norm_prob e).
by cbn [E]; rewrite E_obind; apply: IH => -[[c o]|]; exact: F0.
Qed.

Lemma bwd_ge0 (G : X -> X -> setting * X * Q -> xnum) ins x F : (forall o, 0 <= F o) ->
  0 <= E (oscan (@xbwd_body X n' _ G) x ins) F.
Proof.
elim: ins x F => [|[[[k xs] l] q] ins IH] x F F0; first exact: F0.
cbn [oscan xbwd_body]; rewrite E_obind E_obind E_on_weights; case e: (finite_weights _) => [v|]; last exact: F0.
apply: E_ge0 => [|B]; first by apply: proper_choice; exact: fin_norm_prob e.
by cbn [E]; rewrite E_obind; apply: IH => -[[c o]|]; exact: F0.
Qed.

Lemma scan_ge0 ins x F : (forall o, 0 <= F o) -> 0 <= E (oscan (@xscan_body X n') x ins) F.
Proof.
elim: ins x F => [|[xs A] ins IH] x F F0; first exact: F0.
by cbn [oscan xscan_body]; rewrite E_obind; cbn [E]; rewrite E_obind; apply: IH => -[[c o]|]; exact: F0.
Qed.

Local Notation sweep := (xal_sweep ld scale rs mv L0 Lt g0 gt).

Lemma al_sweep_ge0 key b0 bs (y0 : pop) ys u0 us s0 ss qs backward F : (forall o, 0 <= F o) ->
  0 <= E (sweep key b0 bs y0 ys u0 us s0 ss qs backward) F.
Proof.
move=> F0; rewrite /xal_sweep E_obind /xal_forward E_obind; apply: al_scan_ge0 => -[[c outs]|]; last exact: F0.
cbn [E]; rewrite E_obind.
case: backward; rewrite /xbackward_sampling_pass /xbackward_scanning_pass; case: (xlast_gen _) => lT xT.
- rewrite E_obind E_on_weights; case e: (finite_weights _) => [v|]; last exact: F0.
  apply: E_ge0 => [|[B a]]; first exact: mv_proper (fin_norm_prob e).
  by rewrite E_obind; apply: bwd_ge0 => -[[x' o]|]; exact: F0.
- rewrite E_obind E_on_weights; case e: (finite_weights _) => [v|]; last exact: F0.
  apply: E_ge0 => [|[B a]]; first exact: mv_proper (fin_norm_prob e).
  by rewrite E_obind; apply: scan_ge0 => -[[x' o]|]; exact: F0.
Qed.

Lemma al_sweep_none key b0 bs (y0 : pop) ys u0 us s0 ss qs backward F i : g0 (y0 i) = None ->
  E (sweep key b0 bs y0 ys u0 us s0 ss qs backward) F = F None.
Proof.
move=> gi; rewrite /xal_sweep E_obind /xal_forward E_obind.
set lw := xminus_max _.
have nan : lw i = NaN.
  rewrite /lw /xminus_max /xal_G_0_tilde /xal_Gamma_0_tilde gi /=.
  by case: (L0 (y0 i)).
have none : finite_weights (xnormalize lw) = None.
  by rewrite finite_normalize /usable; case: forallP => // /(_ i); rewrite nan.
case: (sinputs _ _ _ _ _ _) => [|a ins].
- cbn [oscan E]; rewrite E_obind.
  by case: backward; rewrite /xbackward_sampling_pass /xbackward_scanning_pass /=; rewrite E_obind E_on_weights none.
- by cbn [oscan xal_body]; rewrite E_obind E_obind E_on_weights none.
Qed.

Lemma lsum_pos (Y : finType) (y : Y) (nus : seq (Y -> R)) G :
  (forall nu, List.In nu nus -> forall z, 0 < nu z) -> (forall ys, 0 < G ys) -> 0 < lsum nus G.
Proof.
elim: nus G => [|nu nus IH] G pos G0 /=; first exact: G0.
apply: (sum_pos_one (i := y)) => [z|].
  by apply: mulr_ge0; apply: ltW; [apply: pos; left|apply: IH => // nu' h; apply: pos; right].
by apply: mulr_gt0; [apply: pos; left|apply: IH => // nu' h; apply: pos; right].
Qed.

Lemma lsum_ge0 (Y : finType) (nus : seq (Y -> R)) G :
  (forall nu, List.In nu nus -> forall z, 0 < nu z) -> (forall ys, 0 <= G ys) -> 0 <= lsum nus G.
Proof.
elim: nus G => [|nu nus IH] G pos G0 /=; first exact: G0.
apply: sumr_ge0 => z _; apply: mulr_ge0; first by apply: ltW; apply: pos; left.
by apply: IH => // nu' h; apply: pos; right.
Qed.

Lemma iid_pos s (p : pop) : 0 < iid (noise s) p.
Proof. by apply: prodr_gt0. Qed.

Theorem al_undefined key x0 xs b0 bs s0 ss qs backward y i : i != b0 -> g0 y = None ->
  0 < Pr (xal_kernel noise ld scale rs mv L0 Lt g0 gt key x0 xs b0 bs s0 ss qs backward) (fun o => ~~ isSome o).
Proof.
move=> ib gy; rewrite /Pr /xal_kernel E_bind E_normals.
have inner e0 es : 0 < E (match xal_aux scale g0 gt x0 xs s0 ss qs e0 es with
   | Some (u0, us) => do (p0, ps) <- normals (split key 0) (iid (noise s0)) [seq iid (noise s) | s <- ss];
       sweep key b0 bs (mk_pop u0 p0 b0 x0) (mk_pops us ps bs xs) u0 us s0 ss qs backward
   | None => Ret None end) (fun o => (~~ isSome o)%:R : R).
  case: (xal_aux _ _ _ _ _ _ _ _ _ _) => [[u0 us]|]; last by rewrite /= ltr01.
  rewrite E_bind E_normals; have ip nu : List.In nu [seq iid (noise s) | s <- ss] -> forall z : pop, 0 < nu z.
    by move=> /List.in_map_iff [s [<- _]] z; exact: iid_pos.
  apply: (sum_pos_one (i := [ffun=> y - u0] : pop)) => [p|].
    apply: mulr_ge0; first exact: ltW (iid_pos _ _).
    by apply: lsum_ge0 => // ps; apply: al_sweep_ge0 => o; exact: ler0n.
  apply: mulr_gt0; first exact: iid_pos.
  apply: (lsum_pos ([ffun=> 0] : pop)) => // ps.
  rewrite (@al_sweep_none _ _ _ _ _ _ _ _ _ _ _ _ i) ?ltr01 //.
  by rewrite /mk_pop /upd !ffunE (negbTE ib) ?ffunE [u0 + _]addrC subrK.
have np nu : List.In nu [seq noise s | s <- ss] -> forall z, 0 < nu z.
  by move=> /List.in_map_iff [s [<- _]] z.
apply: (sum_pos_one (i := 0)) => [e|].
  by apply: mulr_ge0; [exact: ltW|apply: lsum_ge0 => // es; exact: ltW (inner _ _)].
by apply: mulr_gt0 => //; apply: (lsum_pos (0 : X)) => // es; exact: inner.
Qed.
End Undefined.

Lemma al_zeros_met (X : finZmodType) (setting : Type) (ld : setting -> X -> R) :
  let G0 := fun x : X => (x == 0)%:R : R in
  let Gt := fun (x y : X) (_ : unit) => (x == y)%:R : R in
  let L0 := fun x => if x == 0 then Fin 0 else NInf in
  let Lt := fun (x y : X) (_ : unit) => if x == y then Fin 0 else NInf in
  [/\ forall s, prob_vec (ex_noise ld s), forall s z, 0 < ex_noise ld s z,
      forall s z, exp (ld s z) = (\sum_z exp (ld s z)) * ex_noise ld s z,
      (forall x, log_of (L0 x) (G0 x)) /\ (forall x y q, log_of (Lt x y q) (Gt x y q))
    & forall T, 0 < pot_target G0 Gt (nseq T tt) 0 (nseq T 0)].
Proof.
move=> G0 Gt L0 Lt; split.
- exact: ex_noise_prob.
- exact: ex_noise_gt0.
- by move=> s z; rewrite /ex_noise mulrCA divff ?mulr1 // lt0r_neq0 ?ex_total.
- by split=> [x|x y q]; rewrite /L0 /Lt /G0 /Gt; case: eqP => //= _; rewrite exp_0.
- move=> T; rewrite /pot_target; apply: mulr_gt0; first by rewrite /G0 eqxx ltr01.
  by elim: T => [|T IH] /=; rewrite ?ltr01 // /Gt eqxx mul1r.
Qed.
