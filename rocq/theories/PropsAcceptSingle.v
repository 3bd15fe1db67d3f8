(** * Property theorems C76: averages over the moves of mala.py, tp.py and imh.py, and the acceptance rates that the
    sampling loop of tp.py records.  Statements only; the proofs are in AcceptSingle.v.

    One move is the position before, the position after and the indicator that the kernel returns.
    [settles_positions] (AcceptSpec.v): the law of a move does not depend on the key; from every start, averages of
    bounded functions of the moves converge in mean square to their mean when the position before follows the target.
    [single_move] (RunFinal.v) is either a move that meets its contract (Barker), without bias, or the forced move of
    the code with the bias of its threshold.  [marginal_H] (ErgodicSingle.v): the two samplers of mala.py, with the
    auxiliary variable kept or integrated out. *)
From Coq Require Import Reals.
From mathcomp Require Import all_ssreflect all_algebra.
From Verif Require Import RInst Prog Resampling Spec Single SingleProofs SingleFinal Drivers.
From Verif Require Import ErgodicSpec ErgodicSingleSpec ErgodicSingle ProperSpec RunFinal AcceptSpec AcceptSingle.

Set Implicit Arguments.
Unset Strict Implicit.
Unset Printing Implicit Defensive.
Import GRing.Theory Num.Theory Order.TTheory.
Local Open Scope ring_scope.

(** ** C76 *)
Theorem C76_mala (X : finZmodType) (N : nat) (log_pdf : X -> R) (grad : X -> X) (noise ld : X -> R) (scale : X -> X)
    (log_H : {ffun 'I_N.+1 -> X} -> X -> X -> R) (mv : mover N.+1) (bias : R -> R) aux :
  (0 < N)%N -> prob_vec noise -> (forall z, 0 < noise z) -> single_move mv bias -> marginal_H noise ld log_H aux ->
  settles_positions (fun x => (log_pdf x, grad x))
    (regrouped (fun k => mala_kernel log_pdf grad noise ld scale log_H mv k aux)) (fun x => exp (log_pdf x)) bias.
Proof. by move=> *; apply: mala_positions. Qed.
Print Assumptions C76_mala.

Theorem C76_tp (X : finZmodType) (N : nat) (log_pdf : X -> R) (grad : X -> X) (noise : X -> R) (scale : X -> X)
    (mv : mover N.+1) (bias : R -> R) (corr : X -> X -> X -> R) (post_sampling : key -> X -> prog {ffun 'I_N -> X})
    (prior : X -> R) (post : X -> X -> R) :
  (0 < N)%N -> prob_vec noise -> (forall z, 0 < noise z) -> single_move mv bias ->
  (forall u z, 0 < post u z) -> (forall x, 0 < prior x) ->
  (forall key u, samples_indep (post_sampling key u) (fun _ => post u)) ->
  (forall u, exists Z, forall x, prior x * noise (u - x) = Z * post u x) ->
  (forall u x g, noise (u - x) * exp (corr u x g) = noise (u - (x + scale g))) ->
  settles_positions (fun x => (log_pdf x, grad x))
    (regrouped (tp1_kernel log_pdf grad noise scale mv corr post_sampling)) (fun x => prior x * exp (log_pdf x)) bias.
Proof. by move=> *; apply: (@tp_positions X N _ _ _ _ mv bias _ _ _ _ _ _ prior post). Qed.
Print Assumptions C76_tp.

Theorem C76_imh (X : finType) (N : nat) (log_pdf : X -> R) prior_sampling (prior : X -> R) (mv : mover N.+1)
    (bias : R -> R) :
  (0 < N)%N -> single_move mv bias -> (forall x, 0 < prior x) ->
  (forall key, samples_indep (prior_sampling key) (fun _ => prior)) ->
  settles_positions log_pdf (imh_kernel log_pdf prior_sampling mv) (fun x => prior x * exp (log_pdf x)) bias.
Proof. by move=> *; apply: imh_positions. Qed.
Print Assumptions C76_imh.

Section Recorded.
Variables (X : finType) (C : Type) (cached : X -> C) (K : key -> X * C -> prog (X * C * bool)).
Variables (target : X -> R) (bias : R -> R).

(** Averages over the recorded positions and indicators. *)
Theorem C76_recorded : settles_positions cached K target bias -> exists2 e, 0 < e <= 1 &
  forall key x n k (F : X * bool -> R) c, (0 < k)%N -> (0 < n)%N -> (forall z, `|F z| <= c) ->
    E (tp_sampling K key (x, cached x) n k)
      (fun out => if out is inl r then
         (average F (zip r.1 r.2) - position_mean cached K target (fun z => F (z.1.2, z.2))) ^+ 2 else 0)
    <= 16%:R * c ^+ 2 * (1 + 4%:R / e) / ((n + k.-1) %/ k)%:R + 8%:R * c * (bias c / e).
Proof. by move=> sp; apply: tp_loop_moves. Qed.

(** The acceptance rate over the recorded indicators. *)
Theorem C76_acceptance : settles_positions cached K target bias -> exists2 e, 0 < e <= 1 &
  forall key x n k, (0 < k)%N -> (0 < n)%N ->
    E (tp_sampling K key (x, cached x) n k)
      (fun out => if out is inl r then
         (average (fun b : bool => b%:R) r.2 - position_acceptance cached K target) ^+ 2 else 0)
    <= 16%:R * (1 + 4%:R / e) / ((n + k.-1) %/ k)%:R + 8%:R * (bias 1 / e).
Proof. by move=> sp; apply: tp_loop_acceptance. Qed.
End Recorded.
Print Assumptions C76_recorded.
Print Assumptions C76_acceptance.

Theorem C76_acceptance_consistent (X : finType) (C : Type) (cached : X -> C) (K : key -> X * C -> prog (X * C * bool))
    (target : X -> R) (h eps : R) :
  settles_positions cached K target (fun=> 0) -> (forall key x, proper (K key (x, cached x))) ->
  (forall key x, always (fun r => r.1.2 = cached r.1.1) (K key (x, cached x))) -> 0 < h -> 0 < eps ->
  exists N, forall key x n k, (0 < k)%N -> (N * k <= n)%N ->
    Pr (tp_sampling K key (x, cached x) n k)
       (fun out => if out is inl r then
          h <= `|average (fun b : bool => b%:R) r.2 - position_acceptance cached K target| else false) <= eps.
Proof. exact: tp_acceptance_consistent. Qed.
Print Assumptions C76_acceptance_consistent.

(** ** Examples *)
(** With a flat likelihood and Barker's move, imh.py accepts with probability N / (N + 1). *)
Example C76_ex_rate (X : finType) N prior_sampling (prior : X -> R) : (0 < N)%N ->
  (forall x, 0 < prior x) -> (forall key, samples_indep (prior_sampling key) (fun _ => prior)) ->
  position_acceptance (fun=> 0) (imh_kernel (fun=> 0) prior_sampling (@barker_move N.+1)) (fun x => prior x * exp 0)
  = N%:R / N.+1%:R.
Proof. exact: ex_imh_acceptance. Qed.

(** The moves of the code. *)
Example C76_ex_moves N :
  single_move (@barker_move N.+1) (fun=> 0) /\ single_move (@force_move N.+1) (force_eps N.+1).
Proof. exact: ex_single_moves. Qed.

(** Noise and samplers with these laws; the coherence and properness asked of kernels. *)
Example C76_ex_noise :
  [/\ prob_vec hf, forall z, 0 < hf z & forall key u, samples_indep (unif_one key u) (fun _ => hf)].
Proof. exact: ex_single_noise. Qed.

Example C76_ex_coherent (X : finType) N (log_pdf : X -> R) prior_sampling (prior : X -> R) : (0 < N)%N ->
  (forall key, samples_indep (prior_sampling key) (fun _ => prior)) ->
  (forall key x, proper (imh_kernel log_pdf prior_sampling (@barker_move N.+1) key (x, log_pdf x)))
  /\ (forall key x, always (fun r => r.1.2 = log_pdf r.1.1)
        (imh_kernel log_pdf prior_sampling (@barker_move N.+1) key (x, log_pdf x))).
Proof. exact: ex_imh_coherent. Qed.
