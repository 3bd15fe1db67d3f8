(** * NanSingleFail: undefined gradients, and finite numbers, for mala.py and tp.py (C90). *)
From Coq Require Import Reals Lra FunctionalExtensionality.
From mathcomp Require Import all_ssreflect all_algebra.
From Verif Require Import RInst Prog ProgTheory Resampling Spec ResamplingProofs.
From Verif Require Import CsmcInvariance Single SingleSpec SingleProofs.
From Verif Require Import NanCsmc NanSpec NanTheory NanNumbers NanProofs NanFinal NanImh NanImhProofs NanSingle.

Set Implicit Arguments.
Unset Strict Implicit.
Unset Printing Implicit Defensive.
Import GRing.Theory Num.Theory Order.TTheory.
Local Open Scope ring_scope.

Lemma xmax_nan a : xmax a NaN = NaN. Proof. by case: a. Qed.

Lemma amax_nan n' (l : 'I_n'.+1 -> xnum) i : l i = NaN -> xamax l = NaN.
Proof.
move=> e; rewrite /xamax; have := mem_index_enum i; elim: (index_enum _) => // j s IH.
rewrite inE big_cons => /orP [/eqP <-|h]; first by rewrite e.
by rewrite IH // xmax_nan.
Qed.

Lemma self_nan n' (l : 'I_n'.+1 -> xnum) i : l i = NaN -> finite_weights (xself_normalise l) = None.
Proof.
move=> e; rewrite /finite_weights; case: ifP => // /forallP /(_ i).
by rewrite /xself_normalise (amax_nan e) e.
Qed.

Lemma xselect_fail (Y : Type) n' (mv : mover n'.+1) key l (pay : 'I_n'.+1 -> Y) :
  Pr (xselect mv key l pay) (fun o => ~~ isSome o) = (~~ isSome (finite_weights (xself_normalise l)))%:R.
Proof.
rewrite /Pr /xselect E_obind /on_weights; case: (finite_weights _) => [w|] //.
by rewrite E_bind (eq_E _ (g := fun=> 0)) ?E0.
Qed.

Lemma sum_pos_one (I : finType) (h : I -> R) i : (forall j, 0 <= h j) -> 0 < h i -> 0 < \sum_j h j.
Proof. by move=> h0 hi; rewrite (bigD1 i) //= ltr_spaddl // sumr_ge0. Qed.

Section Fail.
Variables (X : finZmodType) (N : nat) (log_pdf : X -> xnum) (grad : X -> option X) (noise ld : X -> R) (scale : X -> X).
Variable log_H : {ffun 'I_N.+2 -> X} -> X -> X -> R.
Variable mv : mover N.+2.
Hypothesis noise0 : forall a, 0 < noise a.

Lemma insert_at (Y : Type) (a : Y) (h : 'I_N.+1 -> Y) j : insert0 a h (lift ord0 j) = h j.
Proof. by rewrite /insert0 liftK. Qed.

Theorem xmala_undefined key aux x y : grad y = None ->
  0 < Pr (xmala_kernel log_pdf grad noise ld scale log_H mv key aux (xtp1_init log_pdf grad x)) (fun o => ~~ isSome o).
Proof.
move=> gy; rewrite /Pr /xmala_kernel /xmala_run /xtp1_init; cbn [fst snd].
case gx: (grad x) => [g|]; last by rewrite /= ltr01.
rewrite E_bind E_draw; apply: (sum_pos_one (i := 0)) => [e|].
  apply: mulr_ge0; first exact: ltW; rewrite E_bind E_draw; apply: sumr_ge0 => eps _.
  apply: mulr_ge0; first by apply: prodr_ge0 => j _; exact: ltW.
  by cbv zeta; have := xselect_fail; rewrite /Pr => ->; exact: ler0n.
rewrite mulr_gt0 // E_bind E_draw; cbv zeta; set u := x + _ + _.
apply: (sum_pos_one (i := [ffun=> y - u])) => [eps|].
  apply: mulr_ge0; first by apply: prodr_ge0 => j _; exact: ltW.
  by have := xselect_fail; rewrite /Pr => ->; exact: ler0n.
rewrite mulr_gt0 //; first by apply: prodr_gt0.
have := xselect_fail; rewrite /Pr => ->.
rewrite (@self_nan _ _ (lift ord0 ord0)) ?ltr01 //.
rewrite /xmala_log_weights; case: aux; rewrite !insert_at !ffunE [u + _]addrC subrK gy;
  by case: (log_pdf y).
Qed.

Variables (corr : X -> X -> X -> R) (post_sampling : key -> X -> prog {ffun 'I_N.+1 -> X}) (post : X -> X -> R).

Theorem xtp_undefined key x y : (forall key u, samples_indep (post_sampling key u) (fun _ => post u)) ->
  (forall u z, 0 < post u z) -> grad y = None ->
  0 < Pr (xtp1_kernel log_pdf grad noise scale mv corr post_sampling key (xtp1_init log_pdf grad x)) (fun o => ~~ isSome o).
Proof.
move=> ps p0 gy; rewrite /Pr /xtp1_kernel /xtp1_run /xtp1_init; cbn [fst snd].
case gx: (grad x) => [g|]; last by rewrite /= ltr01.
rewrite E_bind E_draw; apply: (sum_pos_one (i := 0)) => [e|]; cbv zeta.
  apply: mulr_ge0; first exact: ltW; have [_ _ s] := ps (split key 0) (x + scale g + e).
  rewrite E_bind s; apply: sumr_ge0 => z _; apply: mulr_ge0; first by apply: prodr_ge0 => j _; exact: ltW.
  by have := xselect_fail; rewrite /Pr => ->; exact: ler0n.
rewrite mulr_gt0 //; set u := x + _ + _; have [_ _ s] := ps (split key 0) u; rewrite E_bind s.
apply: (sum_pos_one (i := [ffun=> y])) => [z|].
  apply: mulr_ge0; first by apply: prodr_ge0 => j _; exact: ltW.
  by have := xselect_fail; rewrite /Pr => ->; exact: ler0n.
rewrite mulr_gt0 //; first by apply: prodr_gt0.
have := xselect_fail; rewrite /Pr => ->.
by rewrite (@self_nan _ _ (lift ord0 ord0)) ?ltr01 // !insert_at !ffunE gy; case: (log_pdf y).
Qed.
End Fail.

(** ** Finite numbers *)
Lemma xselect_finite (Y Z : Type) n' (mv : mover n'.+1) key (l : 'I_n'.+1 -> R) lx (pay : 'I_n'.+1 -> Y)
    (payx : 'I_n'.+1 -> Z) (h : Y -> Z) f : (forall i, lx i = Fin (l i)) -> (forall i, payx i = h (pay i)) ->
  E (xselect mv key lx payx) f = E (select mv key l pay) (fun r => f (Some (h r.1, r.2))).
Proof.
move=> e1 e2; have -> : lx = fun i => Fin (l i) by apply: functional_extensionality.
have u : usable (fun i => Fin (l i)) by apply/andP; split; [apply/forallP|apply/existsP; exists ord0].
rewrite E_xselect // [RHS]E_bind.
have -> : wnorm (fun i => Fin (l i)) = self_normalise l.
  by rewrite self_normaliseE; apply: functional_extensionality => i; rewrite /wnorm u normalizeE.
by apply: eq_E => r; rewrite e2.
Qed.

Section Agree.
Variables (X : zmodType) (N : nat) (log_pdf : X -> R) (grad : X -> X).
Variables (aux_noise : key -> prog X) (prop_noise : key -> prog {ffun 'I_N -> X}) (ld : X -> R) (scale : X -> X).
Variable log_H : {ffun 'I_N.+1 -> X} -> X -> X -> R.
Variable mv : mover N.+1.
Local Notation up := (fun st : X * R * X => (st.1.1, Fin st.1.2, Some st.2)).

Lemma insert_up (A B : Type) (h : A -> B) a (b : 'I_N -> A) i : insert0 (h a) (fun j => h (b j)) i = h (insert0 a b i).
Proof. by rewrite /insert0; case: unlift. Qed.

Theorem xmala_agrees key aux st f :
  E (xmala_run (fun x => Fin (log_pdf x)) (fun x => Some (grad x)) aux_noise prop_noise ld scale log_H mv key aux (up st)) f
  = E (mala_run log_pdf grad aux_noise prop_noise ld scale log_H mv key aux st) (fun r => f (Some (up r.1, r.2))).
Proof.
rewrite /xmala_run /mala_run; cbn [fst snd]; rewrite !E_bind; apply: eq_E => e; rewrite !E_bind; apply: eq_E => eps.
cbv zeta; apply: (@xselect_finite _ _ _ _ _ _ _ _ _ up) => i.
  by rewrite /xmala_log_weights /mala_log_weights; case: aux; rewrite !(insert_up Fin) !(insert_up some) !ffunE.
by rewrite !(insert_up Fin) !(insert_up some) !ffunE.
Qed.

Theorem xtp_agrees corr (ps : key -> X -> prog {ffun 'I_N -> X}) key st f :
  E (xtp1_run (fun x => Fin (log_pdf x)) (fun x => Some (grad x)) aux_noise scale mv corr ps key (up st)) f
  = E (tp1_run log_pdf grad aux_noise scale mv corr ps key st) (fun r => f (Some (up r.1, r.2))).
Proof.
rewrite /xtp1_run /tp1_run; cbn [fst snd]; rewrite !E_bind; apply: eq_E => e; cbv zeta; rewrite !E_bind; apply: eq_E => y.
by apply: (@xselect_finite _ _ _ _ _ _ _ _ _ up) => i; rewrite !(insert_up Fin) !(insert_up some) !ffunE.
Qed.
End Agree.
