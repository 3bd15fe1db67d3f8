(** * LimitWitness: the hypotheses of C65 are met. *)
From Coq Require Import Reals Lra.
From mathcomp Require Import all_ssreflect all_algebra.
From Verif Require Import RInst Prog Gauss Resampling Spec Csmc TpReal LimitSpec LimitTheory LimitStep.

Set Implicit Arguments.
Unset Strict Implicit.
Unset Printing Implicit Defensive.
Import GRing.Theory Num.Theory Order.TTheory.
Local Open Scope ring_scope.

Lemma path_sum_cont d (I : Type) : path_cont (fun r : seq 'cV[R]_d * I => \sum_(x <- r.1) sqn x).
Proof.
move=> x l b [sz h]; rewrite (big_nth 0) /=.
apply: (lim_ext (u := fun n => \sum_(i < size l) sqn (nth 0 (x n) i))) => [n|].
  by rewrite (big_nth 0) sz big_mkord.
by rewrite big_mkord; apply: lim_sum => i _; apply: lim_sqn; exact: h.
Qed.

Lemma succ_infinity : to_infinity (fun m => m.+1%:R : R).
Proof.
move=> M; have [k [Hk kp]] := @archimed_cor1 (/ (Rabs M + 1))%coqR ltac:(apply: Rinv_0_lt_compat; have := Rabs_pos M; lra).
exists k => m hm; rewrite RnatE.
have h1 : (Rabs M + 1 < INR k)%coqR.
  apply: Rnot_le_lt => h; have := Rinv_le_contravar _ _ (lt_0_INR _ kp) h; lra.
have := le_INR _ _ hm; have := Rle_abs M; rewrite S_INR; lra.
Qed.

Lemma limit_witness (d : nat) (I : Type) :
  [/\ cont_resampler (@multinomial 3), cont_resampler (@killing 2), cont_mover (@barker_move 3)
    & to_infinity (fun m => m.+1%:R : R) /\ forall m, 0 < (m.+1%:R : R)] /\
  [/\ cont (fun x : 'cV[R]_d => - sqn x), vcont (fun x : 'cV[R]_d => (-2%:R) *: x),
      cont2 (fun xm x : 'cV[R]_d => dotv xm x - sqn x), vcont2 (fun xm x : 'cV[R]_d => xm - 2%:R *: x)
    & path_cont (fun r : seq 'cV[R]_d * I => \sum_(x <- r.1) sqn x)].
Proof.
split; split.
- exact: multinomial_cont.
- exact: killing_cont.
- exact: barker_cont.
- by split=> [|m]; [exact: succ_infinity|rewrite ltr0n].
- by move=> x l h; apply: lim_opp; exact: lim_sqn.
- by move=> x l h; apply: vlim_scale h; exact: lim_const.
- by move=> x l y k h h'; apply: lim_sub; [exact: lim_dotv|exact: lim_sqn].
- by move=> x l y k h h'; apply: vlim_sub h _; apply: vlim_scale h'; exact: lim_const.
exact: path_sum_cont.
Qed.
