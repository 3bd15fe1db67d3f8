(** * Property theorems C89: imh.py on targets with zeros.
    Statements only; the proofs are in NanImhProofs.

    [ximh_kernel] is imh.py with numbers that may be [-inf], [+inf] or NaN; a run that needs weights that
    are not finite has no result ([None]).  [log_pdf x] is the logarithm of the likelihood [L x >= 0]. *)
From Coq Require Import Reals.
From mathcomp Require Import all_ssreflect all_algebra.
From Verif Require Import RInst Prog ProgTheory Resampling Spec ResamplingProofs CsmcInvariance AuxFinal Single SingleSpec.
From Verif Require Import SingleProofs SingleFinal NanCsmc NanSpec NanExamples NanImh NanImhProofs.

Set Implicit Arguments.
Unset Strict Implicit.
Unset Printing Implicit Defensive.
Import GRing.Theory Num.Theory Order.TTheory.
Local Open Scope ring_scope.

(** From a state of positive likelihood the weights are finite, in every execution and whatever the
    proposals and the selection. *)
Theorem C89_weights_finite (X : finType) (N : nat) (log_pdf : X -> xnum) (L : X -> R) prior_sampling
    (mv : mover N.+1) (key : key) x :
  (forall x, log_of (log_pdf x) (L x)) -> 0 < L x ->
  always isSome (ximh_kernel log_pdf prior_sampling mv key (ximh_init log_pdf x)).
Proof. by move=> h Lx; exact: ximh_some. Qed.
Print Assumptions C89_weights_finite.

(** Invariance of prior times likelihood; the value returned with the state is its log-likelihood. *)
Theorem C89_imh (X : finType) (N : nat) (log_pdf : X -> xnum) (L : X -> R) prior_sampling (prior : X -> R)
    (mv : mover N.+1) (key : key) f :
  (forall x, log_of (log_pdf x) (L x)) -> prob_vec prior ->
  (forall key, samples_indep (prior_sampling key) (fun _ => prior)) -> relabels mv -> good_mover mv ->
  \sum_x prior x * L x
    * E (do o <- ximh_kernel log_pdf prior_sampling mv key (ximh_init log_pdf x); Ret (omap fst o)) f
  = \sum_x prior x * L x * f (Some (x, log_pdf x)).
Proof. by move=> h1 h2 h3 h4 h5; exact: ximh_keeps. Qed.
Print Assumptions C89_imh.

Theorem C89_imh_force_move_error (X : finType) (N : nat) (log_pdf : X -> xnum) (L : X -> R) prior_sampling
    (prior : X -> R) (key : key) f c :
  (forall x, log_of (log_pdf x) (L x)) -> prob_vec prior ->
  (forall key, samples_indep (prior_sampling key) (fun _ => prior)) -> (forall o, `|f o| <= c) ->
  `|\sum_x prior x * L x
      * E (do o <- ximh_kernel log_pdf prior_sampling (@force_move N.+1) key (ximh_init log_pdf x); Ret (omap fst o)) f
    - \sum_x prior x * L x * f (Some (x, log_pdf x))|
  <= \sum_x prior x * L x * force_eps N.+1 c.
Proof. by move=> h1 h2 h3 h4; apply: ximh_near => // *; [exact: force_rel|exact: force_bound]. Qed.
Print Assumptions C89_imh_force_move_error.

(** In any number of iterations the run has a result and the likelihood stays positive, for selections
    that leave the weights invariant. *)
Theorem C89_iterations_partial (X : finType) (N : nat) (log_pdf : X -> xnum) (L : X -> R) prior_sampling
    (mv : mover N.+1) (keys : seq key) x :
  (forall x, log_of (log_pdf x) (L x)) -> good_mover mv -> proper_mover mv -> 0 < L x ->
  Pr (ximh_runs log_pdf prior_sampling mv keys (ximh_init log_pdf x))
     (fun o => if o is Some st then L st.1 == 0 else true) = 0.
Proof. by move=> h1 h2 h3 h4; exact: ximh_runs_some. Qed.
Print Assumptions C89_iterations_partial.

(** Not for the forced move, which imh.py:81 uses: with a uniform prior on three states, two iterations from
    a state of positive likelihood end without result with positive probability. *)
Theorem C89_iterations_refuted : exists L : 'I_3 -> R,
  [/\ forall x, 0 <= L x, 0 < L ord0
    & forall k1 k2 : key, 0 < Pr (ximh_runs (fun x => xlog (L x)) (unif_states 2 1) (@force_move 3) [:: k1; k2]
        (ximh_init (fun x => xlog (L x)) ord0)) (fun o => ~~ isSome o)].
Proof. exact: ximh_force_fails. Qed.
Print Assumptions C89_iterations_refuted.

(** With finite log-likelihoods this is the kernel of Single.v. *)
Theorem C89_agrees (X : Type) (N : nat) (log_pdf : X -> R) ps (mv : mover N.+1) (key : key) st f :
  E (ximh_kernel (fun x => Fin (log_pdf x)) ps mv key (st.1, Fin st.2)) f
  = E (imh_kernel log_pdf ps mv key st) (fun r => f (Some ((r.1.1, Fin r.1.2), r.2))).
Proof. exact: ximh_agrees. Qed.
Print Assumptions C89_agrees.

(** The hypotheses are met: uniform prior on [m.+1] states, any likelihood [>= 0], the Barker move. *)
Example C89_hypotheses_met (m N : nat) (L : 'I_m.+1 -> R) : (forall x, 0 <= L x) ->
  [/\ forall x, log_of (xlog (L x)) (L x), prob_vec (fun _ : 'I_m.+1 => u_ m),
      forall key, samples_indep (unif_states m N key) (fun _ _ => u_ m), relabels (@barker_move N.+2)
    & good_mover (@barker_move N.+2) /\ proper_mover (@barker_move N.+2)].
Proof.
move=> L0; split; [by move=> x; exact: xlog_of|exact: u_prob|by move=> key; exact: u_indep| |exact: movers].
by move=> key w s k f bs; exact: barker_relabels.
Qed.
