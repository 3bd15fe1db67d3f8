(** * Property theorems C90: mala.py and tp.py on targets with zeros.
    Statements only; the proofs are in NanSingleProofs, NanSingleRuns, NanSingleFail and NanSingleForce.

    [xmala_kernel] and [xtp1_kernel] are mala.py and tp.py with numbers that may be [-inf], [+inf] or NaN and
    gradients that may be undefined; a run that needs weights that are not finite has no result ([None]).
    [log_pdf x] is the logarithm of [L x >= 0]: the target for mala.py, the likelihood for tp.py. *)
From Coq Require Import Reals.
From mathcomp Require Import all_ssreflect all_algebra.
From Verif Require Import RInst Prog ProgTheory Resampling Spec ResamplingProofs CsmcInvariance AuxFinal Single SingleSpec.
From Verif Require Import SingleProofs SingleFinal NanCsmc NanSpec NanExamples NanImh NanSingle NanSingleProofs.
From Verif Require Import NanSingleRuns NanSingleFail NanSingleForce.

Set Implicit Arguments.
Unset Strict Implicit.
Unset Printing Implicit Defensive.
Import GRing.Theory Num.Theory Order.TTheory.
Local Open Scope ring_scope.

(** From a state of positive density the weights are finite, in every execution, whatever the noise, the
    proposals and the selection, if the gradient is defined everywhere, also where the density is zero. *)
Theorem C90_weights_finite (X : finZmodType) (N : nat) (log_pdf : X -> xnum) (L : X -> R) (g : X -> X) (noise ld : X -> R)
    (scale : X -> X) log_H (mv : mover N.+1) corr post_sampling (key : key) (aux : bool) x :
  (forall x, log_of (log_pdf x) (L x)) -> 0 < L x ->
  let grad x := Some (g x) in
  always isSome (xmala_kernel log_pdf grad noise ld scale log_H mv key aux (xtp1_init log_pdf grad x)) /\
  always isSome (xtp1_kernel log_pdf grad noise scale mv corr post_sampling key (xtp1_init log_pdf grad x)).
Proof. by move=> h Lx grad; split; [apply: (xmala_some g noise ld scale log_H mv h key aux Lx)|apply: (xtp_some g noise scale mv h corr post_sampling key Lx)]. Qed.
Print Assumptions C90_weights_finite.

(** Invariance; the value and the gradient returned with the state are those of the state. *)
Theorem C90_mala_auxiliary (X : finZmodType) (N : nat) (log_pdf : X -> xnum) (L : X -> R) (g : X -> X) (noise ld : X -> R)
    (scale : X -> X) log_H (mv : mover N.+1) (key : key) f :
  (forall x, log_of (log_pdf x) (L x)) -> prob_vec noise -> (forall z, noise (- z) = noise z) ->
  (exists c, c != 0 /\ forall z, exp (ld z) = c * noise z) -> relabels mv -> good_mover mv ->
  let grad x := Some (g x) in
  \sum_x L x * E (do o <- xmala_kernel log_pdf grad noise ld scale log_H mv key true (xtp1_init log_pdf grad x); Ret (omap fst o)) f
  = \sum_x L x * f (Some (x, log_pdf x, Some (g x))).
Proof. by move=> h1 h2 h3 h4 h5 h6 grad; exact: xmala_aux_keeps. Qed.
Print Assumptions C90_mala_auxiliary.

Theorem C90_mala_marginal (X : finZmodType) (N : nat) (log_pdf : X -> xnum) (L : X -> R) (g : X -> X) (noise ld : X -> R)
    (scale : X -> X) log_H (mv : mover N.+1) (key : key) f :
  (forall x, log_of (log_pdf x) (L x)) -> prob_vec noise -> relabels mv -> good_mover mv ->
  (exists S : {ffun 'I_N.+1 -> X} -> R, forall (x : {ffun 'I_N.+1 -> X}) b phi,
     \sum_u noise (u - (x b + phi)) * \prod_(i | i != b) noise (x i - u) = S x * exp (log_H x (x b) phi)) ->
  let grad x := Some (g x) in
  \sum_x L x * E (do o <- xmala_kernel log_pdf grad noise ld scale log_H mv key false (xtp1_init log_pdf grad x); Ret (omap fst o)) f
  = \sum_x L x * f (Some (x, log_pdf x, Some (g x))).
Proof. by move=> h1 h2 h3 h4 h5 grad; exact: xmala_marg_keeps. Qed.
Print Assumptions C90_mala_marginal.

Theorem C90_tp (X : finZmodType) (N : nat) (log_pdf : X -> xnum) (L : X -> R) (g : X -> X) (noise : X -> R)
    (scale : X -> X) (mv : mover N.+1) (corr : X -> X -> X -> R) post_sampling (prior : X -> R) (post : X -> X -> R) (key : key) f :
  (forall x, log_of (log_pdf x) (L x)) -> prob_vec noise -> relabels mv -> good_mover mv ->
  (forall x, 0 <= prior x) -> (forall u, prob_vec (post u)) ->
  (forall key u, samples_indep (post_sampling key u) (fun _ => post u)) ->
  (forall u, exists Z, forall x, prior x * noise (u - x) = Z * post u x) ->
  (forall u x g, noise (u - x) * exp (corr u x g) = noise (u - (x + scale g))) ->
  let grad x := Some (g x) in
  \sum_x prior x * L x * E (do o <- xtp1_kernel log_pdf grad noise scale mv corr post_sampling key (xtp1_init log_pdf grad x); Ret (omap fst o)) f
  = \sum_x prior x * L x * f (Some (x, log_pdf x, Some (g x))).
Proof. by move=> h1 h2 h3 h4 h5 h6 h7 h8 h9 grad; exact: (xtp_keeps _ h1 h2 h3 h5 h6 h7 h8 h9). Qed.
Print Assumptions C90_tp.

(** With the forced move, which the code uses (mala.py:84, tp.py:100). *)
Theorem C90_mala_force_move_error (X : finZmodType) (N : nat) (log_pdf : X -> xnum) (L : X -> R) (g : X -> X) (noise ld : X -> R)
    (scale : X -> X) log_H (key : key) (aux : bool) f c :
  (forall x, log_of (log_pdf x) (L x)) -> prob_vec noise ->
  (if aux then (forall z, noise (- z) = noise z) /\ exists c, c != 0 /\ forall z, exp (ld z) = c * noise z
   else exists S : {ffun 'I_N.+1 -> X} -> R, forall (x : {ffun 'I_N.+1 -> X}) b phi,
     \sum_u noise (u - (x b + phi)) * \prod_(i | i != b) noise (x i - u) = S x * exp (log_H x (x b) phi)) ->
  (forall o, `|f o| <= c) ->
  let grad x := Some (g x) in
  `|\sum_x L x * E (do o <- xmala_kernel log_pdf grad noise ld scale log_H (@force_move N.+1) key aux (xtp1_init log_pdf grad x);
                    Ret (omap fst o)) f
    - \sum_x L x * f (Some (x, log_pdf x, Some (g x)))| <= \sum_x L x * force_eps N.+1 c.
Proof.
move=> h1 h2 h3 h4; cbv zeta; case: aux h3 => [[h5 h6]|h5].
  by apply: xmala_aux_near => // *; [exact: force_rel|exact: force_bound].
by apply: xmala_marg_near => // *; [exact: force_rel|exact: force_bound].
Qed.
Print Assumptions C90_mala_force_move_error.

Theorem C90_tp_force_move_error (X : finZmodType) (N : nat) (log_pdf : X -> xnum) (L : X -> R) (g : X -> X) (noise : X -> R)
    (scale : X -> X) (corr : X -> X -> X -> R) post_sampling (prior : X -> R) (post : X -> X -> R) (key : key) f c :
  (forall x, log_of (log_pdf x) (L x)) -> prob_vec noise ->
  (forall x, 0 <= prior x) -> (forall u, prob_vec (post u)) ->
  (forall key u, samples_indep (post_sampling key u) (fun _ => post u)) ->
  (forall u, exists Z, forall x, prior x * noise (u - x) = Z * post u x) ->
  (forall u x g, noise (u - x) * exp (corr u x g) = noise (u - (x + scale g))) -> (forall o, `|f o| <= c) ->
  let grad x := Some (g x) in
  `|\sum_x prior x * L x * E (do o <- xtp1_kernel log_pdf grad noise scale (@force_move N.+1) corr post_sampling key
                                        (xtp1_init log_pdf grad x); Ret (omap fst o)) f
    - \sum_x prior x * L x * f (Some (x, log_pdf x, Some (g x)))| <= \sum_x prior x * L x * force_eps N.+1 c.
Proof.
move=> h1 h2 h3 h4 h5 h6 h7 h8; cbv zeta.
by apply: (xtp_near _ h1 h2 _ h3 h4 h5 h6 h7) => // *; [exact: force_rel|exact: force_bound].
Qed.
Print Assumptions C90_tp_force_move_error.

(** Any sequence of calls of both kernels, changing every parameter except the target: the run has a result
    and the density stays positive, for selections that leave the weights invariant. *)
Theorem C90_iterations_partial (X : finZmodType) (log_pdf : X -> xnum) (L : X -> R) (g : X -> X)
    (Ks : seq (X * xnum * option X -> prog (option ((X * xnum * option X) * bool)))) x :
  let grad x := Some (g x) in
  (forall x, log_of (log_pdf x) (L x)) ->
  (forall K, List.In K Ks -> exists (N : nat) (mv : mover N.+1) (key : key) noise scale,
     [/\ good_mover mv, proper_mover mv &
       (exists ld log_H aux, K = xmala_kernel log_pdf grad noise ld scale log_H mv key aux) \/
       (exists corr post_sampling post, (forall key u, samples_indep (post_sampling key u) (fun _ => post u)) /\
          K = xtp1_kernel log_pdf grad noise scale mv corr post_sampling key)]) ->
  0 < L x ->
  Pr (xsteps Ks (xtp1_init log_pdf grad x)) (fun o => if o is Some st then L st.1.1 == 0 else true) = 0.
Proof.
move=> grad h hK; apply: xsteps_some => // K /hK [N [mv [key [noise [scale [gm pm]]]]]].
case=> [[ld [lH [aux ->]]]|[corr [ps [post [s ->]]]]]; first exact: mala_stays.
by apply: tp_stays => //; exact: s.
Qed.
Print Assumptions C90_iterations_partial.

(** Not for the forced move, which mala.py:84 uses: on a group with three elements, in both styles, two
    iterations from a state of positive density end without result with positive probability.  The gradient is
    defined everywhere and the noise meets the hypotheses of invariance. *)
Theorem C90_iterations_refuted : exists (X : finZmodType) (L : X -> R) (noise ld : X -> R) x,
  [/\ forall x, 0 <= L x, 0 < L x, prob_vec noise, forall z, noise (- z) = noise z
    & exists c, c != 0 /\ forall z, exp (ld z) = c * noise z] /\
  (exists S : {ffun 'I_3 -> X} -> R, forall (x : {ffun 'I_3 -> X}) b phi,
     \sum_u noise (u - (x b + phi)) * \prod_(i | i != b) noise (x i - u) = S x * exp 0) /\
  forall (k1 k2 : key) (aux : bool),
    let K key := xmala_kernel (N := 2) (fun x => xlog (L x)) (fun _ => Some 0) noise ld (fun _ => 0) (fun _ _ _ => 0)
                   (@force_move 3) key aux in
    0 < Pr (xsteps [:: K k1; K k2] (xtp1_init (fun x => xlog (L x)) (fun _ => Some 0) x)) (fun o => ~~ isSome o).
Proof. exact: xmala_force_fails. Qed.
Print Assumptions C90_iterations_refuted.

(** That the gradient is defined where the density is zero cannot be left out: if it is undefined at one
    point, then one call, from any state, has no result with positive probability. *)
Theorem C90_undefined_gradient_mala (X : finZmodType) (N : nat) (log_pdf : X -> xnum) (grad : X -> option X) (noise ld : X -> R)
    (scale : X -> X) log_H (mv : mover N.+2) (key : key) (aux : bool) x y :
  (forall z, 0 < noise z) -> grad y = None ->
  0 < Pr (xmala_kernel log_pdf grad noise ld scale log_H mv key aux (xtp1_init log_pdf grad x)) (fun o => ~~ isSome o).
Proof. by move=> h1 h2; exact: (xmala_undefined _ _ _ _ _ h1 _ _ _ h2). Qed.
Print Assumptions C90_undefined_gradient_mala.

Theorem C90_undefined_gradient_tp (X : finZmodType) (N : nat) (log_pdf : X -> xnum) (grad : X -> option X) (noise : X -> R)
    (scale : X -> X) (mv : mover N.+2) corr post_sampling (post : X -> X -> R) (key : key) x y :
  (forall z, 0 < noise z) -> (forall key u, samples_indep (post_sampling key u) (fun _ => post u)) ->
  (forall u z, 0 < post u z) -> grad y = None ->
  0 < Pr (xtp1_kernel log_pdf grad noise scale mv corr post_sampling key (xtp1_init log_pdf grad x)) (fun o => ~~ isSome o).
Proof. by move=> h1 h2 h3 h4; exact: (xtp_undefined _ _ _ h1 _ _ _ h2 h3 h4). Qed.
Print Assumptions C90_undefined_gradient_tp.

(** With finite log-densities and gradients these are the kernels of Single.v. *)
Theorem C90_agrees (X : zmodType) (N : nat) (log_pdf : X -> R) (grad : X -> X) aux_noise prop_noise (ld : X -> R) (scale : X -> X)
    log_H (mv : mover N.+1) corr (ps : key -> X -> prog {ffun 'I_N -> X}) (key : key) (aux : bool) st f :
  let up (st : X * R * X) := (st.1.1, Fin st.1.2, Some st.2) in
  let xlog_pdf x := Fin (log_pdf x) in let xgrad x := Some (grad x) in
  E (xmala_run xlog_pdf xgrad aux_noise prop_noise ld scale log_H mv key aux (up st)) f
  = E (mala_run log_pdf grad aux_noise prop_noise ld scale log_H mv key aux st) (fun r => f (Some (up r.1, r.2))) /\
  E (xtp1_run xlog_pdf xgrad aux_noise scale mv corr ps key (up st)) f
  = E (tp1_run log_pdf grad aux_noise scale mv corr ps key st) (fun r => f (Some (up r.1, r.2))).
Proof. by split; [exact: xmala_agrees|exact: xtp_agrees]. Qed.
Print Assumptions C90_agrees.

(** The hypotheses are met: any density [>= 0], the noise of PropsSingle, the Barker move.  The laws for the
    marginal style and for tp.py are those of [ex_single_laws] there. *)
Example C90_hypotheses_met (X : finZmodType) (N : nat) (L ld : X -> R) : (forall x, 0 <= L x) -> (forall z, ld (- z) = ld z) ->
  let noise z := exp (ld z) / \sum_z exp (ld z) in
  (forall x, log_of (xlog (L x)) (L x)) /\
  [/\ prob_vec noise, forall z, noise (- z) = noise z & exists c, c != 0 /\ forall z, exp (ld z) = c * noise z] /\
  [/\ relabels (@barker_move N.+2), good_mover (@barker_move N.+2) & proper_mover (@barker_move N.+2)].
Proof.
move=> L0 ev noise; split; first by move=> x; exact: xlog_of.
by split; [exact: ex_single|split; [exact: barker_rel|exact: barker_good|exact: (proj2 (movers _))]].
Qed.
