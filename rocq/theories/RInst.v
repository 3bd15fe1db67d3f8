(** * RInst: the real numbers of Coq's standard library as a mathcomp real field.

    JAX arrays hold IEEE floats.  Throughout the model a JAX scalar is an exact
    real number [R] of Coq's standard library (rounding, overflow and NaN are
    abstracted except where a file says otherwise).  This file only equips [R]
    with the mathcomp structures (big sums, finite functions, matrices). *)
From Coq Require Import Reals Epsilon.
From Coq Require Import Lra.
From mathcomp Require Import all_ssreflect all_algebra.

Set Implicit Arguments.
Unset Strict Implicit.
Unset Printing Implicit Defensive.
Import GRing.Theory Num.Theory Order.TTheory.

Notation R := Rdefinitions.R.
(** [%R] is mathcomp's ring scope from here on; the stdlib scope is [%coqR]. *)
Delimit Scope R_scope with coqR.
Delimit Scope ring_scope with R.

Section RInst.
Local Open Scope R_scope.

Definition eqR (x y : R) : bool := if Req_EM_T x y then true else false.

Lemma eqRP : Equality.axiom eqR.
Proof. by move=> x y; rewrite /eqR; case: Req_EM_T => h; constructor. Qed.

Canonical R_eqMixin := EqMixin eqRP.
Canonical R_eqType := Eval hnf in EqType R R_eqMixin.

Fact inhR : inhabited R.
Proof. exact: (inhabits 0). Qed.

Definition pickR (P : pred R) (n : nat) : option R :=
  let x := epsilon inhR (fun y => P y = true) in if P x then Some x else None.

Fact pickR_some P n x : pickR P n = Some x -> P x.
Proof. by rewrite /pickR; case: (boolP (P _)) => // Px [<-]. Qed.

Fact pickR_ex (P : pred R) : (exists x : R, P x) -> exists n, pickR P n.
Proof.
move=> exP; exists 0%N; rewrite /pickR.
by have -> : P (epsilon inhR (fun y => P y = true)) by apply: (epsilon_spec inhR (fun y => P y = true)).
Qed.

Fact pickR_ext (P Q : pred R) : P =1 Q -> pickR P =1 pickR Q.
Proof.
move=> PEQ n; rewrite /pickR.
have -> : (fun y => P y = true) = (fun y => Q y = true).
  by apply: FunctionalExtensionality.functional_extensionality => y; rewrite PEQ.
by rewrite PEQ.
Qed.

Definition R_choiceMixin : choiceMixin R := Choice.Mixin pickR_some pickR_ex pickR_ext.
Canonical R_choiceType := Eval hnf in ChoiceType R R_choiceMixin.

Fact RplusA : associative Rplus.
Proof. by move=> x y z; rewrite Rplus_assoc. Qed.
Definition R_zmodMixin := ZmodMixin RplusA Rplus_comm Rplus_0_l Rplus_opp_l.
Canonical R_zmodType := Eval hnf in ZmodType R R_zmodMixin.

Fact RmultA : associative Rmult.
Proof. by move=> x y z; rewrite Rmult_assoc. Qed.
Fact R1_neq_0 : (1 != 0 :> R).
Proof. by apply/eqP; exact: R1_neq_R0. Qed.
Fact RmultDr : right_distributive Rmult Rplus.
Proof. by move=> x y z; rewrite Rmult_plus_distr_l. Qed.
Fact RmultDl : left_distributive Rmult Rplus.
Proof. by move=> x y z; rewrite Rmult_plus_distr_r. Qed.
Definition R_ringMixin :=
  RingMixin RmultA Rmult_1_l Rmult_1_r RmultDl RmultDr R1_neq_0.
Canonical R_ringType := Eval hnf in RingType R R_ringMixin.
Canonical R_comRingType := Eval hnf in ComRingType R Rmult_comm.

Fact RmulVf : GRing.Field.axiom (R := R_comRingType) Rinv.
Proof. by move=> x /eqP nx; exact: Rinv_l. Qed.
Fact Rinv0 : Rinv 0 = 0.
Proof. exact: Rinv_0. Qed.

Definition R_unitRingMixin := FieldUnitMixin RmulVf Rinv0.
Canonical R_unitRingType := Eval hnf in UnitRingType R R_unitRingMixin.
Canonical R_comUnitRingType := Eval hnf in [comUnitRingType of R].
Fact R_fieldMixin : GRing.Field.mixin_of [unitRingType of R].
Proof. by []. Qed.
Definition R_idomainMixin := FieldIdomainMixin R_fieldMixin.
Canonical R_idomainType := Eval hnf in IdomainType R R_idomainMixin.
Canonical R_fieldType := FieldType R R_fieldMixin.

Definition Rleb (x y : R) : bool := if Rle_dec x y then true else false.
Definition Rltb (x y : R) : bool := if Rlt_dec x y then true else false.

Lemma RlebP x y : reflect (Rle x y) (Rleb x y).
Proof. by rewrite /Rleb; case: Rle_dec => h; constructor. Qed.
Lemma RltbP x y : reflect (Rlt x y) (Rltb x y).
Proof. by rewrite /Rltb; case: Rlt_dec => h; constructor. Qed.

Fact Rle0_add x y : Rleb 0 x -> Rleb 0 y -> Rleb 0 (x + y).
Proof. by move=> /RlebP hx /RlebP hy; apply/RlebP; lra. Qed.
Fact Rle0_mul x y : Rleb 0 x -> Rleb 0 y -> Rleb 0 (x * y).
Proof. by move=> /RlebP hx /RlebP hy; apply/RlebP; exact: Rmult_le_pos. Qed.
Fact Rle0_anti x : Rleb 0 x -> Rleb x 0 -> x = 0.
Proof. by move=> /RlebP hx /RlebP hy; lra. Qed.
Fact Rsub_ge0 x y : Rleb 0 (y - x) = Rleb x y.
Proof. by apply/RlebP/RlebP; lra. Qed.
Fact Rle0_total x : Rleb 0 x || Rleb x 0.
Proof.
by case: (Rle_dec 0 x) => h; apply/orP; [left|right]; apply/RlebP => //; lra.
Qed.
Fact Rge0_norm x : Rleb 0 x -> Rabs x = x.
Proof. by move=> /RlebP hx; rewrite Rabs_right //; lra. Qed.
Fact Rlt_def x y : Rltb x y = (y != x) && Rleb x y.
Proof.
apply/RltbP/andP => [h|[/eqP h1 /RlebP h2]]; last by lra.
by split; [apply/eqP; lra | apply/RlebP; lra].
Qed.

Definition R_leMixin : realLeMixin R_idomainType :=
  RealLeMixin (R := R_idomainType) Rle0_add Rle0_mul Rle0_anti Rsub_ge0 Rle0_total
    Rabs_Ropp Rge0_norm Rlt_def.

End RInst.

Canonical R_porderType := POrderType ring_display R R_leMixin.
Canonical R_latticeType := LatticeType R R_leMixin.
Canonical R_distrLatticeType := DistrLatticeType R R_leMixin.
Fact Rle_total_ : totalPOrderMixin R_porderType.
Proof.
move=> x y; change (Rleb x y || Rleb y x).
by case: (Rle_dec x y) => h; apply/orP; [left|right]; apply/RlebP => //; lra.
Qed.
Canonical R_orderType := OrderType R Rle_total_.
Canonical R_numDomainType := NumDomainType R R_leMixin.
Canonical R_normedZmodType := NormedZmodType R R R_leMixin.
Canonical R_numFieldType := [numFieldType of R].
Canonical R_realDomainType := [realDomainType of R].
Canonical R_realFieldType := [realFieldType of R].

(** Read real-valued expressions in mathcomp notation. *)
Global Bind Scope ring_scope with Rdefinitions.R.
Global Arguments exp _%ring_scope.
Global Arguments ln _%ring_scope.
Global Arguments sqrt _%ring_scope.

(** Keep the mathcomp operations folded under [simpl]. *)
Global Arguments GRing.mul : simpl never.
Global Arguments GRing.add : simpl never.
Global Arguments GRing.opp : simpl never.
Global Arguments GRing.inv : simpl never.
Global Arguments GRing.zero : simpl never.
Global Arguments GRing.one : simpl never.
Global Arguments GRing.natmul : simpl never.
Global Arguments GRing.exp : simpl never.
Global Arguments Order.le : simpl never.
Global Arguments Order.lt : simpl never.
Global Arguments Order.min : simpl never.
Global Arguments Order.max : simpl never.
Global Arguments Num.Def.normr : simpl never.

(** Bridges between the mathcomp operations on [R] and the standard library's. *)
Local Open Scope ring_scope.
Lemma RleE (x y : R) : (x <= y) <-> Rle x y.
Proof. by split=> [/RlebP|h]; last by apply/RlebP. Qed.
Lemma RltE (x y : R) : (x < y) <-> Rlt x y.
Proof. by split=> [/RltbP|h]; last by apply/RltbP. Qed.

Lemma RnatE (n : nat) : (n%:R : R) = INR n.
Proof.
elim: n => [|n IH] //; rewrite S_INR -IH.
by rewrite -[n.+1]addn1 natrD.
Qed.

(** Turn every mathcomp ring operation on [R] into the stdlib one, so that
    stdlib's [ring], [field], [lra] and [nra] apply. *)
Ltac toR :=
  rewrite ?RnatE;
  repeat match goal with
  | H : is_true (@Order.le _ _ ?x ?y) |- _ => move/RleE in H
  | H : is_true (@Order.lt _ _ ?x ?y) |- _ => move/RltE in H
  end;
  try (apply/RleE); try (apply/RltE);
  rewrite ?/GRing.inv ?/GRing.mul ?/GRing.opp ?/GRing.add ?/GRing.one ?/GRing.zero /=;
  repeat match goal with
  | H : context [GRing.add] |- _ => rewrite /GRing.add /= in H
  | H : context [GRing.mul] |- _ => rewrite /GRing.mul /= in H
  | H : context [GRing.opp] |- _ => rewrite /GRing.opp /= in H
  | H : context [GRing.inv] |- _ => rewrite /GRing.inv /= in H
  | H : context [GRing.zero] |- _ => rewrite /GRing.zero /= in H
  | H : context [GRing.one] |- _ => rewrite /GRing.one /= in H
  end.

(** Goal-only version. *)
Ltac toRg := rewrite ?RnatE;
  try (apply/RleE); try (apply/RltE);
  rewrite ?/GRing.inv ?/GRing.mul ?/GRing.opp ?/GRing.add ?/GRing.one ?/GRing.zero /=.
Ltac Rring := toRg; ring.
Ltac Rlra := toR; lra.

Example toR_ring (a b : R) : (a + b) * (a - b) = a * a - b * b.
Proof. toR; ring. Qed.
Example toR_lra (a b : R) : 0 <= a -> a < b -> 0 < b + a.
Proof. move=> h1 h2; toR; lra. Qed.
Example toR_field (a b : R) : 0 < a -> 2%:R * (b / a) = (b + b) / a.
Proof. move=> h. toR. field. lra. Qed.
