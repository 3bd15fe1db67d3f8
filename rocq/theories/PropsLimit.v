(** * PropsLimit: C65 and C66, tp_csmc.py and atp_csmc_f.py between csmc.py and l_csmc_f.py, al_csmc_f.py. *)
From Coq Require Import Reals.
From mathcomp Require Import all_ssreflect all_algebra.
From Verif Require Import RInst Prog Gauss Resampling Spec Csmc AuxCsmc Kalman Proposal TpCsmc TpReal DensityTp
  LimitSpec LimitTheory LimitCsmc LimitStep LimitTp LimitPrior LimitAux LimitWitness.

Set Implicit Arguments.
Unset Strict Implicit.
Unset Printing Implicit Defensive.
Import GRing.Theory Num.Theory Order.TTheory.
Local Open Scope ring_scope.

(** ** Flat priors.  The prior covariances are multiplied by numbers [kap m] that tend to infinity.  For given auxiliary
    variables and given normal draws [eps], the law of the new path and indices of tp_csmc.py tends to that of
    l_csmc_f.py with the potentials [r0], [rt] as target, on the particles [u_t + sqrt(ell_t / 2) U_t eps]. *)
Theorem C65_flat_prior (d n' : nat) (Q : Type) (mu0 : 'cV[R]_d) (mut : 'cV[R]_d -> Q -> 'cV[R]_d)
  (r0 : 'cV[R]_d -> R) (rt : 'cV[R]_d -> 'cV[R]_d -> Q -> R) (g0 : 'cV[R]_d -> 'cV[R]_d) (gt : 'cV[R]_d -> 'cV[R]_d -> Q -> 'cV[R]_d)
  (kap : nat -> R) (rs : resampler n'.+1) (mv : mover n'.+1) (eps : key -> {ffun 'I_n'.+1 -> 'cV[R]_d})
  (s0 : step d Q) (ss : seq (step d Q)) (key key' : key) (x0 : 'cV[R]_d) (xs : seq 'cV[R]_d) (b0 : 'I_n'.+1) (bs : seq 'I_n'.+1)
  (u0 : 'cV[R]_d) (us : seq 'cV[R]_d) (backward : bool) (f : seq 'cV[R]_d * seq 'I_n'.+1 -> R) :
  (forall q, vcont (mut ^~ q)) -> cont r0 -> (forall q, cont2 (fun xm x => rt xm x q)) ->
  vcont g0 -> (forall q, vcont2 (fun xm x => gt xm x q)) ->
  (forall m, 0 < kap m) -> to_infinity kap -> cont_resampler rs -> cont_mover mv ->
  step_ok s0 -> (forall s, List.In s ss -> step_ok s) -> size us = size ss -> path_cont f ->
  lim (fun m =>
        let t0 := inflate (kap m) s0 in let ts := [seq inflate (kap m) s | s <- ss] in
        E (drop_weights (kernel rs mv (tp_vec mu0 mut r0 rt g0 gt t0 (step_rvs0 mu0 eps t0 u0) (step_rvs mut eps))
             key x0 xs b0 bs (zip us ts) ts backward true)) f)
      (E (drop_weights (l_sweep (@sizes_step d) (@sizes_H d n') r0 rt g0 gt rs mv key' b0 bs
            (mk_pop u0 (turned s0 (eps (split key 0))) b0 x0)
            (mk_pops us (turned_from eps (split key 1) 0 ss) bs xs)
            (sizes s0) [seq sizes s | s <- ss] [seq st_q s | s <- ss] backward)) f).
Proof. by move=> *; apply: tp_flat. Qed.
Print Assumptions C65_flat_prior.

(** atp_csmc_f.py tends to al_csmc_f.py. *)
Theorem C65_flat_prior_aux (d n' : nat) (Q : Type) (mu0 : 'cV[R]_d) (mut : 'cV[R]_d -> Q -> 'cV[R]_d)
  (r0 : 'cV[R]_d -> R) (rt : 'cV[R]_d -> 'cV[R]_d -> Q -> R) (g0 : 'cV[R]_d -> 'cV[R]_d) (gt : 'cV[R]_d -> 'cV[R]_d -> Q -> 'cV[R]_d)
  (kap : nat -> R) (rs : resampler n'.+1) (mv : mover n'.+1) (eps : key -> {ffun 'I_n'.+1 -> 'cV[R]_d})
  (s0 : step d Q) (ss : seq (step d Q)) (key key' : key) (x0 : 'cV[R]_d) (xs : seq 'cV[R]_d) (b0 : 'I_n'.+1) (bs : seq 'I_n'.+1)
  (u0 : 'cV[R]_d) (us : seq 'cV[R]_d) (backward : bool) (f : seq 'cV[R]_d * seq 'I_n'.+1 -> R) :
  (forall q, vcont (mut ^~ q)) -> cont r0 -> (forall q, cont2 (fun xm x => rt xm x q)) ->
  vcont g0 -> (forall q, vcont2 (fun xm x => gt xm x q)) ->
  (forall m, 0 < kap m) -> to_infinity kap -> cont_resampler rs -> cont_mover mv ->
  step_ok s0 -> (forall s, List.In s ss -> step_ok s) -> size us = size ss -> path_cont f ->
  lim (fun m =>
        let t0 := inflate (kap m) s0 in let ts := [seq inflate (kap m) s | s <- ss] in
        E (drop_weights (kernel rs mv (atp_vec mu0 mut r0 rt g0 gt t0 u0 (step_rvs0 mu0 eps t0 u0) (step_rvs mut eps))
             key x0 xs b0 bs (zip us ts) (zip us ts) backward true)) f)
      (E (drop_weights (al_sweep (@sizes_ld d) (@sizes_step d) r0 rt g0 gt rs mv key' b0 bs
            (mk_pop u0 (turned s0 (eps (split key 0))) b0 x0)
            (mk_pops us (turned_from eps (split key 1) 0 ss) bs xs)
            u0 us (sizes s0) [seq sizes s | s <- ss] [seq st_q s | s <- ss] backward)) f).
Proof. by move=> *; apply: atp_flat. Qed.
Print Assumptions C65_flat_prior_aux.

(** ** Informative priors.  The variances of the auxiliary variables are multiplied by numbers [kap m] that tend to infinity,
    i.e. the prior becomes informative compared with them.  For given normal draws the law of the new path and indices of
    tp_csmc.py tends to that of csmc.py with the prior as proposal, and the draws turned by [turn]. *)
Theorem C65_informative_prior (d n' : nat) (Q : Type) (mu0 : 'cV[R]_d) (mut : 'cV[R]_d -> Q -> 'cV[R]_d)
  (r0 : 'cV[R]_d -> R) (rt : 'cV[R]_d -> 'cV[R]_d -> Q -> R) (g0 : 'cV[R]_d -> 'cV[R]_d) (gt : 'cV[R]_d -> 'cV[R]_d -> Q -> 'cV[R]_d)
  (kap : nat -> R) (rs : resampler n'.+1) (mv : mover n'.+1) (eps : key -> {ffun 'I_n'.+1 -> 'cV[R]_d})
  (s0 : step d Q) (ss : seq (step d Q)) (key : key) (x0 : 'cV[R]_d) (xs : seq 'cV[R]_d) (b0 : 'I_n'.+1) (bs : seq 'I_n'.+1)
  (e0 : 'cV[R]_d) (es : seq 'cV[R]_d) (backward : bool) (f : seq 'cV[R]_d * seq 'I_n'.+1 -> R) :
  (forall q, vcont (mut ^~ q)) -> cont r0 -> (forall q, cont2 (fun xm x => rt xm x q)) ->
  vcont g0 -> (forall q, vcont2 (fun xm x => gt xm x q)) ->
  (forall m, 0 < kap m) -> to_infinity kap -> cont_resampler rs -> cont_mover mv ->
  step_ok s0 -> (forall s, List.In s ss -> step_ok s) -> size xs = size ss -> size es = size ss -> path_cont f ->
  lim (fun m =>
        let t0 := widen (kap m) s0 in let ts := [seq widen (kap m) s | s <- ss] in
        let u0 := aux_0 g0 t0 x0 e0 in let us := aux_t gt ts x0 xs es in
        E (drop_weights (kernel rs mv (tp_vec mu0 mut r0 rt g0 gt t0 (step_rvs0 mu0 eps t0 u0) (step_rvs mut eps))
             key x0 xs b0 bs (zip us ts) ts backward true)) f)
      (E (drop_weights (kernel rs mv (prior_vec mu0 mut r0 rt (fun s k => [ffun i => turn s *m eps k i]) s0)
            key x0 xs b0 bs ss ss backward true)) f).
Proof.
by move=> *; apply: (@tp_wide d n' Q mu0 mut r0 rt g0 gt) => //; [exact: aux_0_slower|exact: aux_t_slower].
Qed.
Print Assumptions C65_informative_prior.

(** [turn] is orthogonal, so turned normal draws are normal draws. *)
Theorem C65_turn (d : nat) (Q : Type) (s : step d Q) : step_ok s -> turn s *m (turn s)^T = 1%:M.
Proof. exact: turn_orth. Qed.
Print Assumptions C65_turn.

(** atp_csmc_f.py, when the covariances are diagonal (C57 shows that its proposal density is wrong otherwise). *)
Theorem C65_informative_prior_aux (d n' : nat) (Q : Type) (mu0 : 'cV[R]_d) (mut : 'cV[R]_d -> Q -> 'cV[R]_d)
  (r0 : 'cV[R]_d -> R) (rt : 'cV[R]_d -> 'cV[R]_d -> Q -> R) (g0 : 'cV[R]_d -> 'cV[R]_d) (gt : 'cV[R]_d -> 'cV[R]_d -> Q -> 'cV[R]_d)
  (kap : nat -> R) (rs : resampler n'.+1) (mv : mover n'.+1) (eps : key -> {ffun 'I_n'.+1 -> 'cV[R]_d})
  (s0 : step d Q) (ss : seq (step d Q)) (key : key) (x0 : 'cV[R]_d) (xs : seq 'cV[R]_d) (b0 : 'I_n'.+1) (bs : seq 'I_n'.+1)
  (e0 : 'cV[R]_d) (es : seq 'cV[R]_d) (backward : bool) (f : seq 'cV[R]_d * seq 'I_n'.+1 -> R) :
  (forall q, vcont (mut ^~ q)) -> cont r0 -> (forall q, cont2 (fun xm x => rt xm x q)) ->
  vcont g0 -> (forall q, vcont2 (fun xm x => gt xm x q)) ->
  (forall m, 0 < kap m) -> to_infinity kap -> cont_resampler rs -> cont_mover mv ->
  step_ok s0 -> (forall s, List.In s ss -> step_ok s) -> size xs = size ss -> size es = size ss ->
  st_Q s0 = diag_mx (st_G s0) -> (forall s, List.In s ss -> st_Q s = diag_mx (st_G s)) -> path_cont f ->
  lim (fun m =>
        let t0 := widen (kap m) s0 in let ts := [seq widen (kap m) s | s <- ss] in
        let u0 := aux_0 g0 t0 x0 e0 in let us := aux_t gt ts x0 xs es in
        E (drop_weights (kernel rs mv (atp_vec mu0 mut r0 rt g0 gt t0 u0 (step_rvs0 mu0 eps t0 u0) (step_rvs mut eps))
             key x0 xs b0 bs (zip us ts) (zip us ts) backward true)) f)
      (E (drop_weights (kernel rs mv (prior_vec mu0 mut r0 rt (fun s k => [ffun i => turn s *m eps k i]) s0)
            key x0 xs b0 bs ss ss backward true)) f).
Proof.
by move=> *; apply: (@atp_wide d n' Q mu0 mut r0 rt g0 gt) => //; [exact: aux_0_slower|exact: aux_t_slower].
Qed.
Print Assumptions C65_informative_prior_aux.

(** The hypotheses are met: two resampling schemes, a final move, a sequence of scales, functions and observables. *)
Example ex_limit (d : nat) (I : Type) :
  [/\ cont_resampler (@multinomial 3), cont_resampler (@killing 2), cont_mover (@barker_move 3)
    & to_infinity (fun m => m.+1%:R : R) /\ forall m, 0 < (m.+1%:R : R)] /\
  [/\ cont (fun x : 'cV[R]_d => - sqn x), vcont (fun x : 'cV[R]_d => (-2%:R) *: x),
      cont2 (fun xm x : 'cV[R]_d => dotv xm x - sqn x), vcont2 (fun xm x : 'cV[R]_d => xm - 2%:R *: x)
    & path_cont (fun r : seq 'cV[R]_d * I => \sum_(x <- r.1) sqn x)].
Proof. exact: limit_witness. Qed.
(** So are those on the steps, see [ex_step_ok] and [ex_step_diag] (PropsDensityTp.v). *)

(** ** C66.  Vanishing priors.  The full statement would be that the proposals of tp_csmc.py and atp_csmc_f.py tend to the mean of
    the prior, as draws from the prior do, when the prior covariance tends to 0.  It fails: variances are clipped at 1e-15. *)
Theorem C66_vanishing_prior_refuted (d : nat) (Q : Type) (s : step d Q) (kap : nat -> R) (u m e : 'cV[R]_d) :
  step_ok s -> (forall n, 0 < kap n) -> lim kap 0 -> e <> 0 ->
  [/\ vlim (fun n => rvs_of e m (cholesky (st_Q (inflate (kap n) s)))) m,
      vlim (fun n => prop_rvs (step_prop (inflate (kap n) s)) u m e) (m + sqrt stable_zero *: (st_U s *m e))
    & m + sqrt stable_zero *: (st_U s *m e) <> m].
Proof. by move=> ok k0 kz e0; split; [exact: prior_vanish|exact: rvs_vanish|exact: rvs_vanish_neq]. Qed.
Print Assumptions C66_vanishing_prior_refuted.

(** While no variance is clipped, the proposal has the eigenvectors of the prior and smaller variances. *)
Theorem C66_unclipped_partial (d : nat) (Q : Type) (s : step d Q) : step_ok s -> exists v : 'rV[R]_d,
  p_chol (step_prop s) *m (p_chol (step_prop s))^T = st_U s *m diag_mx v *m (st_U s)^T /\
  forall i, 0 < v 0 i < st_G s 0 i.
Proof. exact: unclipped. Qed.
Print Assumptions C66_unclipped_partial.
