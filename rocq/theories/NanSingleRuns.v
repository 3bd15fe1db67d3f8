(** * NanSingleRuns: any number of iterations of mala.py and tp.py on targets with zeros (C90). *)
From Coq Require Import Reals Lra FunctionalExtensionality.
From mathcomp Require Import all_ssreflect all_algebra.
From Verif Require Import RInst Prog ProgTheory Resampling Spec ResamplingProofs.
From Verif Require Import CsmcInvariance Single SingleSpec SingleProofs.
From Verif Require Import NanCsmc NanSpec NanTheory NanNumbers NanProofs NanFinal NanImh NanImhProofs NanSingle NanSingleProofs.

Set Implicit Arguments.
Unset Strict Implicit.
Unset Printing Implicit Defensive.
Import GRing.Theory Num.Theory Order.TTheory.
Local Open Scope ring_scope.

Lemma move_null_signed n (mv : mover n) key w k (h : 'I_n -> R) : good_mover mv -> proper_mover mv -> prob_vec w ->
  w k != 0 -> (forall j, w j != 0 -> h j = 0) -> E (mv key w k) (fun r => h r.1) = 0.
Proof.
move=> gm pm pw wk h0; have pp := pm key w k pw.
have z : E (mv key w k) (fun r => `|h r.1|) = 0.
  have t0 j : 0 <= w j * E (mv key w j) (fun r => `|h r.1|).
    by apply: mulr_ge0; [case: pw|apply: E_ge0 => [|r]; [exact: pm|exact: normr_ge0]].
  have := gm key w pw (fun j => `|h j|); rewrite [RHS]big1 => [s|j _]; last first.
    by have [->|ne] := eqVneq (w j) 0; [rewrite mul0r|rewrite h0 // normr0 mulr0].
  by have /eqP := sum_pos_zero k t0 s; rewrite mulf_eq0 (negbTE wk) => /eqP.
apply/eqP; rewrite -normr_eq0 eq_le normr_ge0 andbT; apply: le_trans (E_abs _ pp) _; by rewrite z.
Qed.

Section Runs.
Variables (X : finZmodType) (log_pdf : X -> xnum) (tgt : X -> R) (g : X -> X).
Hypothesis logL : forall x, log_of (log_pdf x) (tgt x).
Local Notation grad := (fun x => Some (g x)).
Local Notation St := (X * xnum * option X)%type.
Local Notation init := (xtp1_init log_pdf grad).

(** The kernel, from a state of positive density, gives such a state. *)
Definition stays (K : St -> prog (option (St * bool))) : Prop := forall x f, 0 < tgt x ->
  (forall y, 0 < tgt y -> f (Some (init y)) = 0) -> E (do o <- K (init x); Ret (omap fst o)) f = 0.

Lemma nrm_move n' (mv : mover n'.+1) key (z : {ffun 'I_n'.+1 -> X}) (c : 'I_n'.+1 -> R) (f : X -> R) :
  good_mover mv -> proper_mover mv -> (forall i, 0 < c i) -> 0 < tgt (z ord0) -> (forall y, 0 < tgt y -> f y = 0) ->
  E (mv key (nrm (fun i => tgt (z i) * c i)) ord0) (fun r => f (z r.1)) = 0.
Proof.
move=> gm pm c0 t0 f0; set v := fun i => _.
have tg := tgt_ge0 logL.
have v0 j : 0 <= v j by apply: mulr_ge0 => //; exact: ltW.
have vk : v ord0 != 0 by rewrite /v mulf_neq0 ?gt_eqF.
have s0 : \sum_j v j != 0 by apply: contraNneq vk => e; rewrite (sum_pos_zero ord0 v0 e).
apply: (move_null_signed (h := fun j => f (z j)) key gm pm (nrm_prob v0 vk)).
  by rewrite /nrm mulf_neq0 ?invr_neq0.
move=> j; rewrite /nrm mulf_eq0 negb_or => /andP [vj _]; apply: f0.
by rewrite lt_neqAle tg andbT; apply: contra vj => /eqP e; rewrite /v -e mul0r.
Qed.

Lemma mala_stays N noise ld scale log_H (mv : mover N.+1) key aux : good_mover mv -> proper_mover mv ->
  stays (xmala_kernel log_pdf grad noise ld scale log_H mv key aux).
Proof.
move=> gm pm x f p f0; rewrite (xmala_law g noise ld scale log_H mv logL) //; apply: big1 => u _; apply: big1 => y _.
rewrite (@nrm_move _ mv _ (front x y) (cor g ld scale log_H aux u (front x y)) (fun a => f (Some (init a)))) ?mulr0 //.
  by move=> i; exact: cor_gt0.
by rewrite front0.
Qed.

Lemma tp_stays N noise scale (mv : mover N.+1) corr post_sampling post key :
  (forall key u, samples_indep (post_sampling key u) (fun _ => post u)) -> good_mover mv -> proper_mover mv ->
  stays (xtp1_kernel log_pdf grad noise scale mv corr post_sampling key).
Proof.
move=> ps gm pm x f p f0; have := xtp_law g noise scale mv logL corr ps key f p; rewrite /pafter => ->.
apply: big1 => u _; apply: big1 => y _.
rewrite (@nrm_move _ mv _ (front x y) (fun i => exp (corr u (front x y i) (g (front x y i)))) (fun a => f (Some (init a)))) ?mulr0 //.
  by move=> i; exact: expR_gt0.
by rewrite front0.
Qed.

Theorem xsteps_some Ks x : (forall K, List.In K Ks -> stays K) -> 0 < tgt x ->
  Pr (xsteps Ks (init x)) (fun o => if o is Some st then tgt st.1.1 == 0 else true) = 0.
Proof.
elim: Ks x => [|K Ks IH] x sK p; first by rewrite /Pr /= gt_eqF.
rewrite /Pr [xsteps _ _]/= E_obind; set bad := (fun o : option St => _).
pose f (o : option St) := if o is Some st then E (xsteps Ks st) bad else bad None.
have := sK K (or_introl erefl) x f p; rewrite E_bind => H; rewrite -[RHS]H; last first.
  by move=> y q; apply: IH => // K' h; apply: sK; right.
by apply: eq_E => -[[st b]|].
Qed.
End Runs.
