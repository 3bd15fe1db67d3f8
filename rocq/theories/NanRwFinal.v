(** * NanRwFinal: the two models of rw_csmc.py agree when the potentials are positive;
    laws meeting the hypotheses of C87. *)
From Coq Require Import Reals Lra FunctionalExtensionality.
From mathcomp Require Import all_ssreflect all_algebra.
From Verif Require Import RInst Prog ProgTheory Resampling Spec ResamplingProofs Csmc CsmcInvariance AuxCsmc AuxFinal.
From Verif Require Import NanCsmc NanSpec NanNumbers NanProofs NanFinal NanAgree NanExamples NanRw NanRwProofs.

Set Implicit Arguments.
Unset Strict Implicit.
Unset Printing Implicit Defensive.
Import GRing.Theory Num.Theory Order.TTheory.
Local Open Scope ring_scope.

Section Agree.
Variables (X : finZmodType) (n' : nat) (Q setting : Type).
Local Notation n := n'.+1.
Local Notation pop := (pop X n').
Variables (noise : setting -> X -> R) (rs : resampler n) (mv : mover n).
Variables (G0 : X -> R) (Gt : X -> X -> Q -> R).
Local Notation L0 := (fun x => Fin (G0 x)).
Local Notation Lt := (fun x y q => Fin (Gt x y q)).
Local Notation rbody := (aux_body rs (fun (xm xt : pop) q i => Gt (xm i) (xt i) q) (@normalize_log n) (fun lw i => exp (lw i))).

Lemma rw_body_fin c i f :
  E (xrw_body rs Lt (up_c c) i) f = E (rbody c i) (fun r => f (Some (up_c r.1, up_o r.2))).
Proof.
case: c => w x; cbn [xrw_body aux_body up_c fst snd]; rewrite E_obind on_weights_fin E_bind; apply: eq_E => A.
by cbn [E]; rewrite normalize_log_fin.
Qed.

Lemma rw_forward_fin key b0 bs y0 ys qs f :
  E (xrw_forward rs L0 Lt key b0 bs y0 ys qs) f
  = E (aux_forward rs (fun x i => G0 (x i)) (fun (xm xt : pop) q i => Gt (xm i) (xt i) q) (@normalize_log n)
        (fun lw i => exp (lw i)) key b0 bs y0 ys qs) (fun o => f (Some (up_f o))).
Proof.
rewrite /xrw_forward /aux_forward E_obind E_bind.
have -> : xminus_max (fun i => L0 (y0 i)) = up (minus_max (fun i => G0 (y0 i))).
  by rewrite /xminus_max amax_fin.
have := @E_oscan_scan _ _ _ _ _ _ rbody (xrw_body rs Lt) (@up_c X n') id (@up_o X n') rw_body_fin.
move=> /(_ (sinputs qs ys b0 bs key 3) (normalize (minus_max (fun i => G0 (y0 i))), y0)).
rewrite map_id /up_c /= normalize_fin => H; rewrite H.
by apply: eq_E => -[c outs].
Qed.

Definition back_model (y : pop) : model X n' unit Q :=
  Model (fun _ => Ret y) (fun _ _ => 0) (fun _ => 0) (fun _ xm _ => Ret xm) (fun _ _ _ _ => 0) Gt.

Theorem rw_agrees finite key x0 xs b0 bs s0 ss qs backward f :
  E (xrw_kernel noise rs mv L0 Lt finite key x0 xs b0 bs s0 ss qs backward) f
  = E (rw_kernel noise rs mv G0 Gt finite key x0 xs b0 bs s0 ss qs backward)
      (fun r => f (Some (r.1, [seq (fun i => Fin (lw i)) | lw <- r.2]))).
Proof.
rewrite /xrw_kernel /rw_kernel /rw_forward [LHS]E_bind [RHS]E_bind [RHS]E_bind; apply: eq_E => -[e0 es].
cbv beta iota zeta; rewrite [LHS]E_bind [RHS]E_bind; apply: eq_E => -[p0 ps]; cbv beta iota zeta.
rewrite E_obind /xrw_sweep E_obind rw_forward_fin; apply: eq_E => o.
rewrite E_obind E_bind /aux_backward E_bind gens_fin.
have e : unzip1 (map (@up_g X n') (gens o)) = map (@up n') (unzip1 (gens o)) by rewrite /unzip1 -!map_comp.
have sam := @sampling_fin X n' unit Q mv (back_model [ffun=> x0]).
case: backward; rewrite ?(sam (split key 2)) ?scanning_fin; apply: eq_E => -[ys cs]; cbn [E]; rewrite e /rw_guard.
all: by case: (all finite ys).
Qed.
End Agree.

Lemma rw_zeros_met (X : finZmodType) (setting : Type) (ld : setting -> X -> R) :
  (forall s z, ld s (- z) = ld s z) ->
  let G0 := fun x : X => (x == 0)%:R : R in
  let Gt := fun (x y : X) (_ : unit) => (x == y)%:R : R in
  let L0 := fun x => if x == 0 then Fin 0 else NInf in
  let Lt := fun (x y : X) (_ : unit) => if x == y then Fin 0 else NInf in
  [/\ forall s, prob_vec (ex_noise ld s), forall s z, ex_noise ld s (- z) = ex_noise ld s z,
      forall s z, 0 < ex_noise ld s z,
      (forall x, log_of (L0 x) (G0 x)) /\ (forall x y q, log_of (Lt x y q) (Gt x y q))
    & forall T, 0 < pot_target G0 Gt (nseq T tt) 0 (nseq T 0)].
Proof.
move=> ev G0 Gt L0 Lt; split.
- exact: ex_noise_prob.
- by move=> s; apply: ex_noise_even; exact: ev.
- exact: ex_noise_gt0.
- by split=> [x|x y q]; rewrite /L0 /Lt /G0 /Gt; case: eqP => //= _; rewrite exp_0.
- move=> T; rewrite /pot_target; apply: mulr_gt0; first by rewrite /G0 eqxx ltr01.
  by elim: T => [|T IH] /=; rewrite ?ltr01 // /Gt eqxx mul1r.
Qed.
