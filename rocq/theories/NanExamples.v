(** * NanExamples: models with zeros, and what fails for other arguments of the kernel (C86). *)
From Coq Require Import Reals Lra FunctionalExtensionality.
From mathcomp Require Import all_ssreflect all_algebra.
From Verif Require Import RInst Prog ProgTheory Resampling Spec ResamplingProofs MoveProofs KillingProofs.
From Verif Require Import Csmc CsmcInvariance CsmcFinal ErgodicFinal NanCsmc NanSpec NanTheory NanNumbers NanProofs NanFinal.

Set Implicit Arguments.
Unset Strict Implicit.
Unset Printing Implicit Defensive.
Import GRing.Theory Num.Theory Order.TTheory.
Local Open Scope ring_scope.

(** The logarithm of a number [>= 0]. *)
Definition xlog (y : R) : xnum := if 0 < y then Fin (ln y) else NInf.

Lemma xlog_of y : 0 <= y -> log_of (xlog y) y.
Proof.
rewrite /xlog le_eqVlt => /orP [/eqP <-|p]; first by rewrite ltxx.
by rewrite p /= exp_ln //; apply/RltE.
Qed.

(** Uniform proposals on [m.+1] states, arbitrary potentials. *)
Section Uniform.
Variables (m n' : nat).
Local Notation X := 'I_m.+1.
Local Notation n := n'.+1.
Definition u_ : R := 1 / m.+1%:R.
Definition unif_states (key : key) : prog {ffun 'I_n -> X} :=
  draw key (fun x : {ffun 'I_n -> X} => \prod_i (fun _ => u_) (x i)).
Definition zmodel (G0 : X -> R) (Gt : X -> X -> unit -> R) : xmodel X n' unit unit :=
  XModel unif_states (fun _ _ => xlog u_) (fun x => xlog (G0 x))
         (fun key _ _ => unif_states key) (fun _ _ _ _ => xlog u_) (fun x y q => xlog (Gt x y q)).

Lemma u_gt0 : 0 < u_. Proof. by rewrite /u_ divr_gt0 ?ltr01 ?ltr0Sn. Qed.
Lemma u_prob : prob_vec (fun _ : X => u_).
Proof.
split=> [i|]; first exact: ltW u_gt0.
by rewrite sumr_const card_ord -mulr_natr /u_ div1r mulVf // pnatr_eq0.
Qed.
Lemma u_indep key : samples_indep (unif_states key) (fun _ _ => u_).
Proof.
split=> [|i|f] //; last exact: u_prob.
by apply: proper_draw; apply: (@prod_prob _ _ (fun _ _ => u_)) => i; exact: u_prob.
Qed.

Lemma zmodel_ok G0 Gt : (forall x, 0 <= G0 x) -> (forall x y q, 0 <= Gt x y q) ->
  markov_zeros (zmodel G0 Gt) (fun _ => u_) (fun _ _ _ => u_) G0 Gt.
Proof.
move=> g0 gt; have u0 := u_gt0; have un : u_ != 0 by rewrite gt_eqF.
have lu : log_of (xlog u_) u_ by apply: xlog_of; exact: ltW.
split=> [|key xm p|xm xt p i|x y q|x y p q _] //; first split=> [key|x i|x|x _] //.
- exact: u_indep.
- exact: xlog_of.
- exact: u_indep.
- exact: xlog_of.
Qed.
End Uniform.

Lemma movers n' : good_mover (@barker_move n'.+1) /\ proper_mover (@barker_move n'.+1).
Proof. by have [_ _ g] := contracts n'; split=> // key w k; exact: barker_proper. Qed.

(** One time step. *)
Lemma E_xkernel1 (X : Type) n' (P Q : Type) (md : xmodel X n' P Q) rs mv key x0 b0 backward cond g :
  backward = false ->
  E (odrop (xkernel rs mv md key x0 [::] b0 [::] [::] [::] backward cond)) g
  = E (xM0_rvs md (split key 0)) (fun y =>
      let z := if cond then upd y b0 x0 else y in
      if finite_weights (xnormalize (xlog_w0 md z)) is Some w
      then E (mv (split key 2) w b0) (fun r => g (Some ([:: z r.1], [:: r.1])))
      else g None).
Proof.
move=> ->; rewrite /odrop /xkernel E_bind E_obind /xforward_pass E_bind; apply: eq_E => y.
rewrite [in E _ _]/= E_obind /= /xbackward_scanning_pass /= !E_obind.
set z := (if cond then _ else _).
rewrite /on_weights; case: (finite_weights _) => [w|] //=.
by rewrite E_bind; apply: eq_E => -[B al].
Qed.

Lemma dens_ratio (y u : R) : 0 <= y -> 0 < u ->
  dens (xsub (xlog y) (xlog u)) = y / u /\ low (xsub (xlog y) (xlog u)).
Proof.
move=> y0 up; rewrite /xlog up; move: y0; rewrite le_eqVlt => /orP [/eqP <-|p]; first by rewrite ltxx /= mul0r.
by rewrite p /= expRB !exp_ln //; apply/RltE.
Qed.

Section Weights.
Variables (m n' : nat) (G0 : 'I_m.+1 -> R) (Gt : 'I_m.+1 -> 'I_m.+1 -> unit -> R).
Hypothesis g0 : forall x, 0 <= G0 x.
Local Notation md := (zmodel n' G0 Gt).
Implicit Type z : {ffun 'I_n'.+1 -> 'I_m.+1}.

Lemma zweights z : finite_weights (xnormalize (xlog_w0 md z))
  = if [exists i, G0 (z i) != 0] then Some (fun i => G0 (z i) / \sum_j G0 (z j)) else None.
Proof.
have up := u_gt0 m; rewrite finite_normalize usable_normalize wnorm_normalize.
set l := (fun i => _).
have dl i : dens (l i) = G0 (z i) / u_ m /\ low (l i) by exact: dens_ratio.
have us : usable l = [exists i, G0 (z i) != 0].
  rewrite /usable; have -> : [forall i, low (l i)] by apply/forallP => i; case: (dl i).
  apply: eq_existsb => i; rewrite dens_fin; have [-> _] := dl i.
  by rewrite mulf_eq0 negb_or invr_eq0 (gt_eqF up) andbT.
rewrite -us; case: ifP => // ul; congr Some; apply: functional_extensionality => i.
rewrite /wnorm ul /wsum; have [-> _] := dl i.
under eq_bigr => j _ do (have [-> _] := dl j).
have k (a b c : R) : c != 0 -> a / c / (b / c) = a / b.
  by move=> c0; rewrite invfM invrK mulrACA mulVf ?mulr1.
by rewrite -mulr_suml k // gt_eqF.
Qed.

(** One population. *)
Lemma E_unif_ge key z (f : {ffun 'I_n'.+1 -> 'I_m.+1} -> R) : (forall y, 0 <= f y) ->
  0 < f z -> 0 < E (unif_states m n' key) f.
Proof.
move=> f0 fz; rewrite E_draw (bigD1 z) //=; apply: ltr_paddr.
  by apply: sumr_ge0 => y _; apply: mulr_ge0 => //; apply: prodr_ge0 => i _; exact: ltW (u_gt0 m).
by apply: mulr_gt0 => //; apply: prodr_gt0 => i _; exact: u_gt0.
Qed.
End Weights.

(** ** Without a reference *)
Definition ind0 (x : 'I_2) : R := (x == ord0)%:R.

Lemma unconditional_fails : exists G0 : 'I_2 -> R,
  let Gt := fun _ _ (_ : unit) => 1 in let md := zmodel 0 G0 Gt in
  [/\ markov_zeros md (fun _ => u_ 1) (fun _ _ _ => u_ 1) G0 Gt, 0 < pot_target G0 Gt [::] ord0 [::]
    & forall key, 0 < Pr (odrop (xkernel (@multinomial 1) (@barker_move 1) md key ord0 [::] ord0 [::] [::] [::] false false))
                         (fun o => ~~ isSome o)].
Proof.
exists ind0 => Gt md.
have g0 x : 0 <= ind0 x by rewrite /ind0 ler0n.
split=> [||key].
- by apply: zmodel_ok => // *; exact: ler01.
- by rewrite /pot_target /= /ind0 eqxx mulr1 ltr01.
rewrite /Pr E_xkernel1 //.
apply: (@E_unif_ge 1 0 (split key 0) [ffun=> lift ord0 ord0]) => [y|].
  cbv beta iota zeta; rewrite zweights //; case: ifP => // _; last exact: ler01.
  by have -> : forall A (q : prog A) (g : A -> R), (forall a, g a = 0) -> E q g = 0 by move=> A q g h; rewrite (eq_E q h) E0.
cbv beta iota zeta; rewrite zweights //; case: ifP => [/existsP [i]|_]; last exact: ltr01.
by rewrite ffunE /ind0 eqxx.
Qed.

(** ** With the forced move *)
Definition dlt : R := Num.min (exp (- 3%:R)) (1 / IZR 1000000000000).
Definition fG (x : 'I_3) : R := if x == ord0 then 1 else if x == lift ord0 ord0 then dlt else 0.

Lemma dlt_gt0 : 0 < dlt.
Proof.
rewrite /dlt lt_minr; apply/andP; split.
  exact: expR_gt0.
apply: divr_gt0; first exact: ltr01.
by apply/RltE; exact: IZR_lt.
Qed.

Lemma dlt_le : force_threshold 3 <= 1 - dlt.
Proof.
rewrite /force_threshold /dlt; move: (1 / IZR _) (exp _) => a b.
by rewrite le_maxl !ler_add2l !ler_opp2 !le_minl !lexx orbT.
Qed.

Lemma force_fails : exists G0 : 'I_3 -> R,
  let Gt := fun _ _ (_ : unit) => 1 in let md := zmodel 2 G0 Gt in
  [/\ markov_zeros md (fun _ => u_ 2) (fun _ _ _ => u_ 2) G0 Gt, 0 < pot_target G0 Gt [::] ord0 [::]
    & forall key, 0 < Pr (odrop (xkernel (@multinomial 3) (@force_move 3) md key ord0 [::] ord0 [::] [::] [::] false true))
                         (fun o => if o is Some (x0 :: xs, _) then pot_target G0 Gt [::] x0 xs == 0 else false)].
Proof.
exists fG => Gt md; have d0 := dlt_gt0.
have g0 x : 0 <= fG x by rewrite /fG; case: ifP => _; [exact: ler01|case: ifP => _; rewrite // ltW].
have pt x0 : pot_target fG Gt [::] x0 [::] = fG x0 by rewrite /pot_target /= mulr1.
split=> [||key].
- by apply: zmodel_ok => // *; exact: ler01.
- by rewrite pt /fG eqxx ltr01.
rewrite /Pr E_xkernel1 //.
have pw (z : {ffun 'I_3 -> 'I_3}) : [exists i, fG (z i) != 0] -> prob_vec (fun i => fG (z i) / \sum_j fG (z j)).
  move=> /existsP [i ni].
  have s0 : 0 < \sum_j fG (z j).
    rewrite (bigD1 i) //=; apply: ltr_paddr; first by apply: sumr_ge0.
    by rewrite lt_neqAle eq_sym ni g0.
  split=> [j|]; first by rewrite divr_ge0 // ltW.
  by rewrite -mulr_suml divff // gt_eqF.
apply: (@E_unif_ge 2 2 (split key 0) [ffun i => i]) => [y|].
  cbv beta iota zeta; rewrite zweights //; case: ifP => // ex.
  apply: E_ge0 => [|r]; last by rewrite ler0n.
  exact: force_proper (pw _ ex).
cbv beta iota zeta; rewrite zweights //.
set z := upd _ _ _.
have zE i : z i = i by rewrite /z /upd !ffunE; case: eqP.
have ex : [exists i, fG (z i) != 0] by apply/existsP; exists ord0; rewrite zE /fG eqxx oner_neq0.
rewrite ex; set w := (fun i => _); have pz := pw _ ex.
rewrite -(E_index_of _ _ _ _ (fun i => (pot_target fG Gt [::] (z i) [::] == 0)%:R)) (E_force pz).
have fz i : pot_target fG Gt [::] (z i) [::] = fG i by rewrite pt zE.
rewrite fz /fG eqxx oner_eq0 add0r.
have t2 : lift ord0 (lift ord0 ord0) != ord0 :> 'I_3 by [].
rewrite (bigD1 (lift ord0 (lift ord0 ord0))) //=; apply: ltr_paddr.
  apply: sumr_ge0 => l _; rewrite subr0 mulr_ge0 ?ler0n // /fm mulr_ge0 //; first exact: rest_ge0.
  by have /andP [] := prob_lt_01 (1 - w l) (1 - w ord0).
rewrite fz /fG /= eqxx subr0 mulr1.
set t := lift ord0 (lift ord0 ord0).
change (0 < force_rest w ord0 t * prob_lt (1 - w t) (1 - w ord0)).
have ws : \sum_j fG (z j) = 1 + dlt.
  by rewrite !big_ord_recl big_ord0 !zE /fG /= !addr0.
have w0 : w ord0 = 1 / (1 + dlt) by rewrite /w ws zE.
have w2 : w t = 0 by rewrite /w zE /fG /= mul0r.
have key1 (d : R) : 0 < d -> 1 - d <= 1 / (1 + d).
  move=> p; rewrite ler_pdivl_mulr; last by rewrite addr_gt0 ?ltr01.
  by rewrite mulrDr mulr1 mulrBl mul1r addrA subrK ler_subl_addr ler_addl mulr_ge0 // ltW.
have -> : force_rest w ord0 t = 1 / 3%:R.
  rewrite /force_rest; case: ifP => // lt; exfalso; move: lt; apply/negP; rewrite -leNgt w0.
  by apply: le_trans (key1 _ d0); exact: dlt_le.
rewrite w2 subr0 w0; apply: mulr_gt0; first by rewrite divr_gt0 ?ltr01 ?ltr0Sn.
have key2 (d : R) : 0 < d -> 0 < 1 - 1 / (1 + d) <= 1.
  move=> p; have q : 0 < 1 + d by rewrite addr_gt0 ?ltr01.
  have r : 0 < 1 / (1 + d) by rewrite divr_gt0 ?ltr01.
  have s : 1 / (1 + d) < 1 by rewrite ltr_pdivr_mulr // mul1r ltr_addl.
  by rewrite subr_gt0 s ler_subl_addr ler_addl ltW.
have /andP [k1 k2] := key2 _ d0.
rewrite /prob_lt ltr01 divr1 /clip lt_minr ltr01 andbT lt_maxr k1 //.
Qed.
