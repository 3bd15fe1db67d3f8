(** * Property theorems C30-C33 (and C16 for these kernels): mala.py, tp.py, imh.py.
    Statements only; the proofs are in SingleProofs and SingleFinal.

    States range over an arbitrary finite abelian group [X] (a finite type for imh)
    standing for R^(T d).  [noise]: law of the noise; [scale]: gradient step; the
    gradient is an arbitrary function.  [at_pos]: position of the resulting state. *)
From Coq Require Import Reals.
From mathcomp Require Import all_ssreflect all_algebra.
From Verif Require Import RInst Prog ProgTheory Resampling Spec CsmcInvariance Gauss GaussSpec AuxCsmc AuxFinal.
From Verif Require Import Single SingleSpec SingleProofs SingleFinal.

Set Implicit Arguments.
Unset Strict Implicit.
Unset Printing Implicit Defensive.
Import GRing.Theory Num.Theory Order.TTheory.
Local Open Scope ring_scope.

(** ** C30 *)
(** [good_mover], [reversible_mover]: the selection leaves invariant / is reversible for the
    weights; [relabels]: it does not depend on the order of the proposals. *)
Theorem C30_mala_auxiliary (X : finZmodType) (N : nat) (log_pdf : X -> R) (grad : X -> X) (noise ld : X -> R)
    (scale : X -> X) log_H (mv : mover N.+1) (key : key) :
  prob_vec noise -> (forall z, noise (- z) = noise z) ->
  (exists c, c != 0 /\ forall z, exp (ld z) = c * noise z) -> relabels mv ->
  let K x := at_pos (mala_kernel log_pdf grad noise ld scale log_H mv key true (tp1_init log_pdf grad x)) in
  (good_mover mv -> keeps_target (fun x => exp (log_pdf x)) K) /\
  (reversible_mover mv -> reversible_kernel (fun x => exp (log_pdf x)) K).
Proof. by move=> h1 h2 h3 h4; split=> h5; [apply: mala_aux_keeps|apply: mala_aux_rev]. Qed.
Print Assumptions C30_mala_auxiliary.

(** Marginal style: the correction is the density of the other proposals given one
    candidate, the auxiliary variable being summed out, up to a common factor; C23 and C21
    prove this of the Gaussian formula of the code. *)
Theorem C30_mala_marginal (X : finZmodType) (N : nat) (log_pdf : X -> R) (grad : X -> X) (noise ld : X -> R)
    (scale : X -> X) log_H (mv : mover N.+1) (key : key) :
  prob_vec noise -> relabels mv ->
  (exists S : {ffun 'I_N.+1 -> X} -> R, forall (x : {ffun 'I_N.+1 -> X}) b phi,
     \sum_u noise (u - (x b + phi)) * \prod_(i | i != b) noise (x i - u) = S x * exp (log_H x (x b) phi)) ->
  let K x := at_pos (mala_kernel log_pdf grad noise ld scale log_H mv key false (tp1_init log_pdf grad x)) in
  (good_mover mv -> keeps_target (fun x => exp (log_pdf x)) K) /\
  (reversible_mover mv -> reversible_kernel (fun x => exp (log_pdf x)) K).
Proof. by move=> h1 h4 h3; split=> h5; [apply: mala_marg_keeps|apply: mala_marg_rev]. Qed.
Print Assumptions C30_mala_marginal.

Theorem C30_code_moves (n : nat) :
  [/\ relabels (@barker_move n), good_mover (@barker_move n), reversible_mover (@barker_move n)
    & relabels (@force_move n)].
Proof. by split; [exact: barker_rel|exact: barker_good|exact: barker_rev|exact: force_rel]. Qed.
Print Assumptions C30_code_moves.

(** With [force_move], which the code uses, the full claim is false; it holds up to an
    error of order 1e-12 (C07). *)
Theorem C30_mala_force_move_refuted : exists (X : finZmodType) (log_pdf : X -> R) (grad : X -> X) (noise ld : X -> R)
    (scale : X -> X) (log_H : {ffun 'I_2 -> X} -> X -> X -> R),
  [/\ prob_vec noise, forall z, noise (- z) = noise z, exists c, c != 0 /\ forall z, exp (ld z) = c * noise z
    & exists S : {ffun 'I_2 -> X} -> R, forall (x : {ffun 'I_2 -> X}) b phi,
        \sum_u noise (u - (x b + phi)) * \prod_(i | i != b) noise (x i - u) = S x * exp (log_H x (x b) phi)] /\
  forall key aux, ~ keeps_target (fun x => exp (log_pdf x))
    (fun x => at_pos (mala_kernel log_pdf grad noise ld scale log_H (@force_move 2) key aux (tp1_init log_pdf grad x))).
Proof. by do 7!eexists; split; [exact: (proj1 deg_hyps)|exact: deg_mala]. Qed.
Print Assumptions C30_mala_force_move_refuted.

Theorem C30_mala_force_move_error (X : finZmodType) (N : nat) (log_pdf : X -> R) (grad : X -> X) (noise ld : X -> R)
    (scale : X -> X) log_H (key : key) (aux : bool) (c : R) :
  prob_vec noise ->
  (if aux then (forall z, noise (- z) = noise z) /\ exists c, c != 0 /\ forall z, exp (ld z) = c * noise z
   else exists S : {ffun 'I_N.+1 -> X} -> R, forall (x : {ffun 'I_N.+1 -> X}) b phi,
     \sum_u noise (u - (x b + phi)) * \prod_(i | i != b) noise (x i - u) = S x * exp (log_H x (x b) phi)) ->
  nearly_keeps_target (fun x => exp (log_pdf x))
    (fun x => at_pos (mala_kernel log_pdf grad noise ld scale log_H (@force_move N.+1) key aux (tp1_init log_pdf grad x)))
    c (force_eps N.+1 c).
Proof. exact: mala_force. Qed.
Print Assumptions C30_mala_force_move_error.

(** With one proposal, the exact law of the kernel with [force_move]: the proposal
    is accepted with the probability [guarded_mh] of the Metropolis-Hastings ratio. *)
Theorem C30_mala_auxiliary_ratio (X : finZmodType) (log_pdf : X -> R) (grad : X -> X) (noise ld : X -> R)
    (scale : X -> X) log_H (key : key) x f :
  prob_vec noise -> (forall z, noise (- z) = noise z) ->
  (exists c, c != 0 /\ forall z, exp (ld z) = c * noise z) ->
  let phi x := scale (grad x) in
  E (at_pos (mala_kernel log_pdf grad noise ld scale log_H (@force_move 2) key true (tp1_init log_pdf grad x))) f
  = \sum_u \sum_y noise (u - (x + phi x)) * noise (y - u) *
    (let g := guarded_mh ((exp (log_pdf y) * noise (u - (y + phi y)) * noise (x - u))
                        / (exp (log_pdf x) * noise (u - (x + phi x)) * noise (y - u))) in
     g * f y + (1 - g) * f x).
Proof. by move=> h1 h2 h3 phi; apply: mala_aux_mh. Qed.
Print Assumptions C30_mala_auxiliary_ratio.

Theorem C30_mala_marginal_ratio (X : finZmodType) (log_pdf : X -> R) (grad : X -> X) (noise ld : X -> R)
    (scale : X -> X) log_H (key : key) x f :
  prob_vec noise ->
  (exists S : {ffun 'I_2 -> X} -> R, forall (x : {ffun 'I_2 -> X}) b phi,
     \sum_u noise (u - (x b + phi)) * \prod_(i | i != b) noise (x i - u) = S x * exp (log_H x (x b) phi)) ->
  let q x y := \sum_u noise (u - (x + scale (grad x))) * noise (y - u) in
  E (at_pos (mala_kernel log_pdf grad noise ld scale log_H (@force_move 2) key false (tp1_init log_pdf grad x))) f
  = \sum_y q x y *
    (let g := guarded_mh (exp (log_pdf y) * q y x / (exp (log_pdf x) * q x y)) in
     g * f y + (1 - g) * f x).
Proof. by move=> h1 h2 q; apply: mala_marg_mh. Qed.
Print Assumptions C30_mala_marginal_ratio.

(** The Gaussian formulas of the code are the ones required. *)
Theorem C30_log_density (d : nat) (delta : R) (u m : 'cV[R]_d) : 0 < delta ->
  mala_ld delta (u - m) = gauss_kernel (delta / 2%:R)%:M u m.
Proof. by move=> d0; apply: mala_ldE. Qed.
Print Assumptions C30_log_density.

(** ** C31 *)
(** The prior is known up to a factor; [post u] is the posterior of [x] given [u] under the
    prior and the noise; the target is the prior times [exp log_pdf]. *)
Theorem C31_tp (X : finZmodType) (N : nat) (log_pdf : X -> R) (grad : X -> X) (noise : X -> R) (scale : X -> X)
    (mv : mover N.+1) (corr : X -> X -> X -> R) post_sampling (prior : X -> R) (post : X -> X -> R) (key : key) :
  prob_vec noise -> relabels mv -> (forall x, 0 <= prior x) -> (forall u, prob_vec (post u)) ->
  (forall key u, samples_indep (post_sampling key u) (fun _ => post u)) ->
  (forall u, exists Z, forall x, prior x * noise (u - x) = Z * post u x) ->
  (forall u x g, noise (u - x) * exp (corr u x g) = noise (u - (x + scale g))) ->
  let K x := at_pos (tp1_kernel log_pdf grad noise scale mv corr post_sampling key (tp1_init log_pdf grad x)) in
  (good_mover mv -> keeps_target (fun x => prior x * exp (log_pdf x)) K) /\
  (reversible_mover mv -> reversible_kernel (fun x => prior x * exp (log_pdf x)) K).
Proof. by move=> h1 h2 h3 h4 h5 h6 h7; split=> h8; [apply: (tp1_keeps _ _ _ _ h4 h5)|apply: (tp1_rev _ _ _ h4 h5)]. Qed.
Print Assumptions C31_tp.

Theorem C31_tp_force_move_refuted : exists (X : finZmodType) (log_pdf : X -> R) (grad : X -> X) (noise : X -> R)
    (scale : X -> X) (corr : X -> X -> X -> R) post_sampling (prior : X -> R) (post : X -> X -> R),
  [/\ prob_vec noise, forall key u, samples_indep (post_sampling key u) (fun _ => post u),
      forall u, exists Z, forall x, prior x * noise (u - x) = Z * post u x
    & forall u x g, noise (u - x) * exp (corr u x g) = noise (u - (x + scale g))] /\
  forall key, ~ keeps_target (fun x => prior x * exp (log_pdf x))
    (fun x => at_pos (tp1_kernel log_pdf grad noise scale (@force_move 2) corr post_sampling key (tp1_init log_pdf grad x))).
Proof. exact: tp1_refuted. Qed.
Print Assumptions C31_tp_force_move_refuted.

Theorem C31_tp_force_move_error (X : finZmodType) (N : nat) (log_pdf : X -> R) (grad : X -> X) (noise : X -> R) (scale : X -> X)
    (corr : X -> X -> X -> R) post_sampling (prior : X -> R) (post : X -> X -> R) (key : key) (c : R) :
  prob_vec noise -> (forall x, 0 <= prior x) -> (forall u, prob_vec (post u)) ->
  (forall key u, samples_indep (post_sampling key u) (fun _ => post u)) ->
  (forall u, exists Z, forall x, prior x * noise (u - x) = Z * post u x) ->
  (forall u x g, noise (u - x) * exp (corr u x g) = noise (u - (x + scale g))) ->
  nearly_keeps_target (fun x => prior x * exp (log_pdf x))
    (fun x => at_pos (tp1_kernel log_pdf grad noise scale (@force_move N.+1) corr post_sampling key (tp1_init log_pdf grad x)))
    c (force_eps N.+1 c).
Proof. by move=> h1 h2 h3 h4 h5 h6; apply: tp1_force. Qed.
Print Assumptions C31_tp_force_move_error.

(** One proposal: the acceptance probability is that of the Metropolis-Hastings ratio of the
    target augmented with [u], for the proposal [post u]. *)
Theorem C31_tp_ratio (X : finZmodType) (log_pdf : X -> R) (grad : X -> X) (noise : X -> R) (scale : X -> X)
    (corr : X -> X -> X -> R) post_sampling (prior : X -> R) (post : X -> X -> R) (key : key) x f :
  (forall key u, samples_indep (post_sampling key u) (fun _ => post u)) -> (forall u, prob_vec (post u)) ->
  (forall u, exists Z, forall x, prior x * noise (u - x) = Z * post u x) ->
  (forall u x g, noise (u - x) * exp (corr u x g) = noise (u - (x + scale g))) -> prior x != 0 ->
  let phi x := scale (grad x) in
  E (at_pos (tp1_kernel log_pdf grad noise scale (@force_move 2) corr post_sampling key (tp1_init log_pdf grad x))) f
  = \sum_u \sum_y noise (u - (x + phi x)) * post u y *
    (let g := guarded_mh ((prior y * exp (log_pdf y) * noise (u - (y + phi y)) * post u x)
                        / (prior x * exp (log_pdf x) * noise (u - (x + phi x)) * post u y)) in
     g * f y + (1 - g) * f x).
Proof. by move=> h1 h2 h3 h4 h5 phi; apply: tp1_mh. Qed.
Print Assumptions C31_tp_ratio.

Theorem C31_correction (d : nat) (delta : R) (u x g : 'cV[R]_d) : 0 < delta ->
  gauss_kernel (delta / 2%:R)%:M u x + tp1_corr delta u x g
  = gauss_kernel (delta / 2%:R)%:M u (x + (1 / 2%:R * delta) *: g).
Proof. by move=> d0; apply: tp1_corrE. Qed.
Print Assumptions C31_correction.

(** ** C32 *)
Theorem C32_imh (X : finType) (N : nat) (log_pdf : X -> R) prior_sampling (prior : X -> R) (mv : mover N.+1) (key : key) :
  relabels mv -> prob_vec prior -> (forall key, samples_indep (prior_sampling key) (fun _ => prior)) ->
  let K x := do r <- imh_kernel log_pdf prior_sampling mv key (imh_init log_pdf x); Ret r.1.1 in
  (good_mover mv -> keeps_target (fun x => prior x * exp (log_pdf x)) K) /\
  (reversible_mover mv -> reversible_kernel (fun x => prior x * exp (log_pdf x)) K).
Proof. by move=> h1 h2 h3; split=> h4; [apply: imh_keeps|apply: imh_rev]. Qed.
Print Assumptions C32_imh.

Theorem C32_imh_force_move_refuted : exists (X : finType) (log_pdf : X -> R) prior_sampling (prior : X -> R),
  prob_vec prior /\ (forall key, samples_indep (prior_sampling key) (fun _ => prior)) /\
  forall key, ~ keeps_target (fun x => prior x * exp (log_pdf x))
    (fun x => do r <- imh_kernel log_pdf prior_sampling (@force_move 2) key (imh_init log_pdf x); Ret r.1.1).
Proof. exact: imh_refuted. Qed.
Print Assumptions C32_imh_force_move_refuted.

Theorem C32_imh_force_move_error (X : finType) (N : nat) (log_pdf : X -> R) prior_sampling (prior : X -> R) (key : key) (c : R) :
  prob_vec prior -> (forall key, samples_indep (prior_sampling key) (fun _ => prior)) ->
  nearly_keeps_target (fun x => prior x * exp (log_pdf x))
    (fun x => do r <- imh_kernel log_pdf prior_sampling (@force_move N.+1) key (imh_init log_pdf x); Ret r.1.1)
    c (force_eps N.+1 c).
Proof. exact: imh_force. Qed.
Print Assumptions C32_imh_force_move_error.

Theorem C32_imh_ratio (X : finType) (log_pdf : X -> R) prior_sampling (prior : X -> R) (key : key) x f :
  (forall key, samples_indep (prior_sampling key) (fun _ => prior)) ->
  E (do r <- imh_kernel log_pdf prior_sampling (@force_move 2) key (imh_init log_pdf x); Ret r.1.1) f
  = \sum_y prior y * (let g := guarded_mh (exp (log_pdf y) / exp (log_pdf x)) in g * f y + (1 - g) * f x).
Proof. exact: imh_mh. Qed.
Print Assumptions C32_imh_ratio.

(** ** C33 *)
(** One step, from any coherent state. *)
Theorem C33_step (X : finZmodType) (log_pdf : X -> R) (grad : X -> X) (N : nat) noise ld scale log_H (mv : mover N.+1)
    corr post_sampling (key : key) (aux : bool) (st : X * R * X) :
  st.1.2 = log_pdf st.1.1 -> st.2 = grad st.1.1 ->
  let ok (r : X * R * X * bool) := (r.1.1.2 = log_pdf r.1.1.1 /\ r.1.2 = grad r.1.1.1) /\ (r.2 = false -> r.1 = st) in
  always ok (mala_kernel log_pdf grad noise ld scale log_H mv key aux st) /\
  always ok (tp1_kernel log_pdf grad noise scale mv corr post_sampling key st).
Proof. by move=> h1 h2 ok; split; [apply: mala_ok|apply: tp1_ok]. Qed.
Print Assumptions C33_step.

Theorem C33_step_imh (X : finType) (log_pdf : X -> R) (N : nat) prior_sampling (mv : mover N.+1) (key : key) (st : X * R) :
  st.2 = log_pdf st.1 ->
  always (fun r => r.1.2 = log_pdf r.1.1 /\ (r.2 = false -> r.1 = st)) (imh_kernel log_pdf prior_sampling mv key st).
Proof. exact: imh_ok. Qed.
Print Assumptions C33_step_imh.

(** Any sequence of calls, mixing both kernels and changing every parameter except the
    target (adaptation changes the step size), from an initial state. *)
Theorem C33_history (X : finZmodType) (log_pdf : X -> R) (grad : X -> X) (Ks : seq (X * R * X -> prog (X * R * X * bool))) (x : X) :
  (forall K, List.In K Ks -> exists (N : nat) (mv : mover N.+1) (key : key) noise scale,
     (exists ld log_H aux, K = mala_kernel log_pdf grad noise ld scale log_H mv key aux) \/
     (exists corr post_sampling, K = tp1_kernel log_pdf grad noise scale mv corr post_sampling key)) ->
  always (fun st => st.1.2 = log_pdf st.1.1 /\ st.2 = grad st.1.1) (iterate Ks (tp1_init log_pdf grad x)).
Proof. exact: history_ok. Qed.
Print Assumptions C33_history.

Theorem C33_history_imh (X : finType) (log_pdf : X -> R) (Ks : seq (X * R -> prog (X * R * bool))) (x : X) :
  (forall K, List.In K Ks -> exists (N : nat) (mv : mover N.+1) (key : key) prior_sampling,
     K = imh_kernel log_pdf prior_sampling mv key) ->
  always (fun st => st.2 = log_pdf st.1) (iterate Ks (imh_init log_pdf x)).
Proof. exact: history_imh. Qed.
Print Assumptions C33_history_imh.

(** ** C16 *)
Theorem C16_keys_single (N : nat) (mv : mover N.+1) (X : finZmodType) log_pdf grad noise ld scale log_H corr
    post_sampling prior_sampling (key : key) (aux : bool) st sti :
  (forall key w k, uses [:: key] (mv key w k)) -> (forall key u, uses [:: key] (post_sampling key u)) ->
  (forall key, uses [:: key] (prior_sampling key)) ->
  [/\ uses [:: key] (@mala_kernel X N log_pdf grad noise ld scale log_H mv key aux st),
      uses [:: key] (@tp1_kernel X N log_pdf grad noise scale mv corr post_sampling key st)
    & uses [:: key] (@imh_kernel X N log_pdf prior_sampling mv key sti)].
Proof. by move=> h1 h2 h3; split; [apply: uses_mala|apply: uses_tp1|apply: uses_imh]. Qed.
Print Assumptions C16_keys_single.

(** ** The hypotheses are met *)
(** On any finite group, any function gives a noise law; with an even function it is even. *)
Example ex_single_noise (X : finZmodType) (ld : X -> R) : (forall z, ld (- z) = ld z) ->
  let noise z := exp (ld z) / \sum_z exp (ld z) in
  [/\ prob_vec noise, forall z, noise (- z) = noise z & exists c, c != 0 /\ forall z, exp (ld z) = c * noise z].
Proof. exact: ex_single. Qed.
(** Laws meeting the hypotheses of all three kernels, on the group with two elements. *)
Example ex_single_laws : exists (X : finZmodType) (noise prior : X -> R) (post : X -> X -> R) post_sampling (corr : X -> X -> X -> R) log_H,
  [/\ prob_vec noise,
      exists S : {ffun 'I_2 -> X} -> R, forall (x : {ffun 'I_2 -> X}) b phi,
        \sum_u noise (u - (x b + phi)) * \prod_(i | i != b) noise (x i - u) = S x * exp (log_H x (x b) phi),
      forall (key : key) u, samples_indep (post_sampling key u) (fun _ : 'I_1 => post u),
      forall u, exists Z, forall x, prior x * noise (u - x) = Z * post u x
    & forall u x g, noise (u - x) * exp (corr u x g) = noise (u - (x + g))].
Proof. exact: ex_laws. Qed.
