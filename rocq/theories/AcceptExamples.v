(** * AcceptExamples: the hypotheses of C75 are met, and one acceptance probability. *)
From Coq Require Import Reals Lra.
From mathcomp Require Import all_ssreflect all_algebra.
From Verif Require Import RInst Prog ProgTheory Resampling Spec ResamplingProofs Csmc CsmcInvariance CsmcSpecs CsmcFinal AuxFinal.
From Verif Require Import ErgodicSpec ErgodicChain ErgodicFinal ProperSpec ProperProofs RunFinal AcceptSpec AcceptProofs AcceptFinal.

Set Implicit Arguments.
Unset Strict Implicit.
Unset Printing Implicit Defensive.
Import GRing.Theory Num.Theory Order.TTheory.
Local Open Scope ring_scope.

Lemma ex_moves n' G0 Gt (qs : seq unit) : (0 < n')%N ->
  settles_moves (size qs) (path_target G0 Gt qs)
    (fun key x0 xs b0 bs =>
       drop_weights (kernel (@killing n') (@barker_move _) (ex_model n' G0 Gt) key x0 xs b0 bs qs qs false true)) (fun=> 0).
Proof.
move=> n0; have [_ mk mb _] := mixing_contracts n'; have [_ _ gb] := contracts n'; have [_ dk _ _] := code_draws n'.
by apply: (csmc_moves false n0 mk dk _ (ex_markov n' G0 Gt)); rewrite ?card_bool //; left.
Qed.

Lemma ex_acceptance n' :
  acceptance 0 (path_target (fun=> 0) (fun _ _ (_ : unit) => 0) [::])
    (fun key x0 xs b0 bs =>
       drop_weights (kernel (@multinomial n'.+1) (@barker_move n'.+1) (ex_model n' (fun=> 0) (fun _ _ _ => 0))
         key x0 xs b0 bs [::] [::] false true)) 0 = n'%:R / n'.+1%:R.
Proof.
have one x0 key : E (drop_weights (kernel (@multinomial n'.+1) (@barker_move n'.+1) (ex_model n' (fun=> 0) (fun _ _ _ => 0))
         key x0 [::] ord0 [::] [::] [::] false true)) (fun r => (nth ord0 r.2 0 != ord0)%:R) = n'%:R / n'.+1%:R.
  rewrite E_kernel1; etransitivity; last apply: (@E_const _ (M0_rvs (ex_model n' (fun=> 0) (fun _ _ _ => 0)) (split key 0))).
    apply: eq_E => y; rewrite E_bind E_choice; last exact: normalize_prob.
    rewrite (eq_bigr (fun i : 'I_n'.+1 => (i != ord0)%:R / n'.+1%:R)); last first.
      move=> i _; rewrite normalizeE mulrC /=; congr (_ * _).
      set lw := log_w0 _ _; have lwE j : lw j = lw i by [].
      rewrite (eq_bigr (fun=> exp (lw i))) => [|j _]; last by rewrite (lwE j).
      have e0 : exp (lw i) != 0 by rewrite gt_eqF //; apply/RltE; exact: exp_pos.
      rewrite sum_const card_ord; move: (exp (lw i)) e0 => u u0.
      by rewrite invfM mulrCA mulfV // mulr1.
    rewrite -mulr_suml; congr (_ / _); rewrite big_ord_recl eqxx add0r.
    by rewrite (eq_bigr (fun=> 1)) // sumr_const card_ord.
  have [h _ _ _] := ex_markov n' (fun=> 0) (fun _ _ _ => 0); by have [h' _ _] := h (split key 0).
have tp x xs : 0 < path_target (X := bool_finType) (fun=> 0) (fun _ _ (_ : unit) => 0) [::] x xs by apply/RltE; exact: exp_pos.
rewrite /acceptance /path_mean !path_sumE.
rewrite (eq_bigr (fun y : 1.-tuple bool => path_target (X := bool_finType) (fun=> 0) (fun _ _ (_ : unit) => 0) [::] (thead y) (behead y) * (n'%:R / n'.+1%:R))).
  rewrite -mulr_suml mulrAC divff ?mul1r // gt_eqF // (bigD1 [tuple of nseq 1 true]) //=.
  by apply: ltr_paddr => //; apply: sumr_ge0 => y _; exact: ltW.
move=> y _; congr (_ * _); have -> : behead y = [::] :> seq bool by apply: size0nil; rewrite size_behead size_tuple.
exact: one.
Qed.
