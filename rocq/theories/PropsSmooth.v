(** * Property theorems C26-C28, C46 (and C16, C29 for these kernels): al_csmc_s.py, atp_csmc_s.py.
    Statements only; the proofs are in the Smooth* files.

    States range over an arbitrary finite abelian group [X] standing for R^d (over any abelian group
    in C26); [setting] holds the step sizes of one time; [noise s]: law of the noise; [ld s z]: its
    unnormalised log-density; [scale s g]: gradient step.  [val0], [valt]: log-potentials;
    [g0], [ga], [gb]: their gradients (arbitrary functions unless said otherwise).
    T time steps are given as one head and [size qs] = T - 1 tails. *)
From Coq Require Import Reals Lra.
From mathcomp Require Import all_ssreflect all_algebra.
From Verif Require Import RInst Prog ProgTheory Resampling Spec ResamplingProofs Csmc CsmcInvariance AuxCsmc AuxFinal.
From Verif Require Import Smooth SmoothSpec SmoothProofs SmoothFinal SmoothKeys SmoothWitness ErgodicFinal ThreeSteps.

Set Implicit Arguments.
Unset Strict Implicit.
Unset Printing Implicit Defensive.
Import GRing.Theory Num.Theory Order.TTheory.
Local Open Scope ring_scope.

(** ** C26 *)
(** Over [m.+2] time steps the modified potentials add up to the log-target plus the
    log-density of the auxiliary variables under the Gaussians centred at a full gradient step. *)
Theorem C26_factorisation (X : zmodType) (Q setting : Type) (ld : setting -> X -> R) (scale : setting -> X -> X)
    val0 (valt : X -> X -> Q -> R) g0 ga gb (x u : nat -> X) (s : nat -> setting) (q : nat -> Q) m :
  sm_Gamma_0 ld scale val0 g0 (s 0%N, u 0%N) (x 0%N)
  + sm_Gamma_1 ld scale valt g0 ga gb (s 0%N, u 0%N) (s 1%N, u 1%N, q 1%N) (x 0%N) (x 1%N)
  + \sum_(i < m) sm_Gamma_t ld scale valt ga gb (s i.+1, u i.+1, q i.+1) (s i.+2, u i.+2, q i.+2) (x i) (x i.+1) (x i.+2)
  = full_log val0 valt q m.+2 x
    + \sum_(t < m.+2) ld (s t) (u t - (x t + scale (s t) (full_gradient g0 ga gb q m.+2 x t))).
Proof. exact: factor. Qed.
Print Assumptions C26_factorisation.

(** The auxiliary variables are drawn from those Gaussians. *)
Theorem C26_auxiliary_variables (X : zmodType) (Q setting : Type) (scale : setting -> X -> X)
    g0 (ga gb : X -> X -> Q -> X) (x e : nat -> X) (s : nat -> setting) (q : nat -> Q) m t : (t <= m)%N ->
  nth 0 (sm_aux scale (mkseq x m.+1) (mkseq s m.+1)
           (full_grad ga gb (g0 (x 0%N)) (x 0%N) (mkseq (fun i => x i.+1) m) (mkseq (fun i => q i.+1) m)) (mkseq e m.+1)) t
  = x t + scale (s t) (full_gradient g0 ga gb q m.+1 x t) + e t.
Proof. exact: aux_centred. Qed.
Print Assumptions C26_auxiliary_variables.

(** [full_gradient] is the gradient of the log-target, one time at a time. *)
Theorem C26_full_gradient (X : lmodType R) (dot : X -> X -> R) (Q : Type) val0 (valt : X -> X -> Q -> R) g0 ga gb
    (q : nat -> Q) (x : nat -> X) m t :
  (forall a b v, dot (a + b) v = dot a v + dot b v) ->
  (forall x, slope dot val0 x (g0 x)) ->
  (forall x y q, slope dot (fun z => valt z y q) x (ga x y q)) ->
  (forall x y q, slope dot (fun z => valt x z q) y (gb x y q)) ->
  (t <= m)%N ->
  slope dot (fun z => full_log val0 valt q m.+1 (set_time x t z)) (x t) (full_gradient g0 ga gb q m.+1 x t).
Proof. by move=> dD h0 ha hb le; apply: gradient_ok. Qed.
Print Assumptions C26_full_gradient.

(** If the potentials do not depend on the previous state the modified potentials are those of
    the filtering-gradient kernel al_csmc_f.py. *)
Theorem C26_reduces_to_filtering (X : finZmodType) (Q setting : Type) (ld : setting -> X -> R) (scale : setting -> X -> X)
    val0 (valt : X -> X -> Q -> R) g0 ga gb (p0 : setting * X) (pm p : setting * X * Q) xmm xm x :
  (forall a b q, ga a b q = 0) ->
  [/\ sm_Gamma_0 ld scale val0 g0 p0 x = al_Gamma_0_tilde ld scale val0 g0 p0.1 p0.2 x,
      sm_Gamma_1 ld scale valt g0 ga gb p0 p xm x = al_Gamma_t_tilde ld scale valt gb xm x p
    & sm_Gamma_t ld scale valt ga gb pm p xmm xm x = al_Gamma_t_tilde ld scale valt gb xm x p].
Proof. exact: reduces. Qed.
Print Assumptions C26_reduces_to_filtering.

(** ** C27 *)
Theorem C27_shapes_partial (X : finZmodType) (n' : nat) (Q setting : Type) (noise ld : setting -> X -> R)
    (scale : setting -> X -> X) val0 (valt : X -> X -> Q -> R) g0 ga gb (rs : resampler n'.+1) (mv : mover n'.+1)
    law0 lpdf0 law lpdf (key : key) x0 xs b0 bs s0 ss qs (backward : bool) :
  (forall key w i j, always (fun A : {ffun 'I_n'.+1 -> 'I_n'.+1} => A j = i) (rs key w i j true)) ->
  (0 < size qs)%N -> size ss = size qs -> size bs = size qs -> size xs = size qs ->
  (* the full statement does not have the next hypothesis: T >= 3 with backward sampling *)
  (backward -> (1 < size qs)%N) ->
  always (keeps_shape x0 xs b0 bs) (als_kernel noise ld scale val0 valt g0 ga gb rs mv key x0 xs b0 bs s0 ss qs backward)
  /\ always (fun r => size r.1 = (size qs).+1 /\ size r.2 = (size qs).+1)
       (atps_kernel noise ld scale val0 valt g0 ga gb rs mv law0 lpdf0 law lpdf key x0 xs b0 bs s0 ss qs backward).
Proof. by move=> kp q0 s1 s2 s3 bw; split; [apply: als_shape|apply: atps_shape]. Qed.
Print Assumptions C27_shapes_partial.

(** For T = 2 with backward sampling, every execution returns arrays of length 3. *)
Theorem C27_shapes_refuted (X : finZmodType) (n' : nat) (Q setting : Type) (noise ld : setting -> X -> R)
    (scale : setting -> X -> X) val0 (valt : X -> X -> Q -> R) g0 ga gb (rs : resampler n'.+1) (mv : mover n'.+1)
    law0 lpdf0 law lpdf (key : key) x0 x1 b0 b1 s0 s1 q :
  always (fun r => size r.1.1 = 3%N /\ size r.1.2 = 3%N)
    (als_kernel noise ld scale val0 valt g0 ga gb rs mv key x0 [:: x1] b0 [:: b1] s0 [:: s1] [:: q] true)
  /\ always (fun r => size r.1 = 3%N /\ size r.2 = 3%N)
    (atps_kernel noise ld scale val0 valt g0 ga gb rs mv law0 lpdf0 law lpdf key x0 [:: x1] b0 [:: b1] s0 [:: s1] [:: q] true).
Proof. by split; [apply: als_two|apply: atps_two]. Qed.
Print Assumptions C27_shapes_refuted.

(** ** C28 *)
(** [sm_xs o], [sm_As o], [sm_xs_m_1 o]: the arrays xs, As, xs_m_1 handed to the backward pass.
    Entry t of xs_m_1 belongs to generation t + 1. *)
Theorem C28_predecessors_partial (X : finZmodType) (n' : nat) (Q setting : Type) (ld : setting -> X -> R)
    (scale : setting -> X -> X) val0 (valt : X -> X -> Q -> R) g0 ga gb (rs : resampler n'.+1)
    law0 lpdf0 law lpdf (key : key) p0 p1 ps b0 b1 bs x0 x1 xs d dA t :
  (* the full statement does not have the next hypothesis *)
  (0 < t)%N ->
  always (fun o => (t < (size (f_outs o)).+1)%N -> own_predecessors d dA (sm_xs o) (sm_As o) (sm_xs_m_1 o) t)
    (als_forward ld scale val0 valt g0 ga gb rs key p0 p1 ps b0 b1 bs x0 x1 xs : prog (fwd X n'))
  /\ always (fun o => (t < (size (f_outs o)).+1)%N -> own_predecessors d dA (sm_xs o) (sm_As o) (sm_xs_m_1 o) t)
    (atps_forward ld scale val0 valt g0 ga gb rs law0 lpdf0 law lpdf key p0 p1 ps b0 b1 bs : prog (fwd X n')).
Proof.
move=> t0; split; [apply: always_imp (als_lineage ld scale val0 valt g0 ga gb rs key p0 p1 ps b0 b1 bs x0 x1 xs)
  |apply: always_imp (atps_lineage ld scale val0 valt g0 ga gb rs law0 lpdf0 law lpdf key p0 p1 ps b0 b1 bs)];
  by move=> o [_ l] lt; exact: own_later.
Qed.
Print Assumptions C28_predecessors_partial.

(** Generation 1: with T = 3, at least two particles ([i != b1]) and multinomial resampling, an
    execution of positive probability pairs a particle with a state that is not its ancestor's. *)
Theorem C28_predecessors_refuted (X : finZmodType) (n' : nat) (Q setting : Type) (ld : setting -> X -> R)
    (scale : setting -> X -> X) val0 (valt : X -> X -> Q -> R) g0 ga gb
    law0 lpdf0 law lpdf (key : key) p0 p1 p2 (b0 b1 b2 i k : 'I_n'.+1) (x0 x1 x2 : pop X n') d dA :
  x0 k != x0 b0 -> i != b1 ->
  ~ almost (fun o => own_predecessors d dA (sm_xs o) (sm_As o) (sm_xs_m_1 o) 0)
      (als_forward ld scale val0 valt g0 ga gb (@multinomial _) key p0 p1 [:: p2] b0 b1 [:: b2] x0 x1 [:: x2])
  /\ ((forall x, law0 p0 x != 0) -> (forall p xm x, law p xm x != 0) ->
  ~ almost (fun o => own_predecessors d dA (sm_xs o) (sm_As o) (sm_xs_m_1 o) 0)
      (atps_forward ld scale val0 valt g0 ga gb (@multinomial _) law0 lpdf0 law lpdf key p0 p1 [:: p2] b0 b1 [:: b2])).
Proof. by move=> nk ni; split=> [|h1 h2]; [apply: als_wrong nk ni|apply: atps_wrong nk ni h1 h2]. Qed.
Print Assumptions C28_predecessors_refuted.

(** ** C29 for these kernels *)
(** [mk_pop u e b x], [mk_pops ...]: the proposals with the reference inserted, as in als_kernel. *)
Theorem C29_reference_al_s (X : finZmodType) (n' : nat) (Q setting : Type) (ld : setting -> X -> R)
    (scale : setting -> X -> X) val0 (valt : X -> X -> Q -> R) g0 ga gb (rs : resampler n'.+1)
    (key : key) p0 p1 ps b0 b1 bs x0 x1 xs u0 u1 us e0 e1 es :
  (forall key w i j, always (fun A : {ffun 'I_n'.+1 -> 'I_n'.+1} => A j = i) (rs key w i j true)) ->
  size us = size ps -> size bs = size ps -> size xs = size ps -> size es = size ps ->
  always (fun o => carries x0 (x1 :: xs) b0 (b1 :: bs) (sm_gens o))
    (als_forward ld scale val0 valt g0 ga gb rs key p0 p1 ps b0 b1 bs
       (mk_pop u0 e0 b0 x0) (mk_pop u1 e1 b1 x1) (mk_pops us es bs xs)).
Proof. exact: als_keeps. Qed.
Print Assumptions C29_reference_al_s.

(** atp_csmc_s.py does not use the reference states: with positive probability the reference is
    not in generation 0. *)
Theorem C29_reference_atp_s_refuted (X : finZmodType) (n' : nat) (Q setting : Type) (ld : setting -> X -> R)
    (scale : setting -> X -> X) val0 (valt : X -> X -> Q -> R) g0 ga gb (rs : resampler n'.+1)
    law0 lpdf0 law lpdf (a : X) (delta : R) s0 (key : key) p1 ps u (b0 b1 : 'I_n'.+1) bs x0 xs :
  (forall p x, prob_vec (law p x)) -> good_resampler rs ->
  (forall u, delta <= law0 (s0, u) a) -> 0 < delta -> x0 != a ->
  ~ almost (fun o => carries x0 xs b0 (b1 :: bs) (sm_gens o))
      (atps_forward ld scale val0 valt g0 ga gb rs law0 lpdf0 law lpdf key (s0, u) p1 ps b0 b1 bs).
Proof. by move=> h1 h2 h3 d0 nx; exact: (atps_not_carried h1 h2 h3 d0 nx). Qed.
Print Assumptions C29_reference_atp_s_refuted.

(** ** C16 for these kernels *)
Theorem C16_keys_al_s_atp_s_partial (X : finZmodType) (n' : nat) (Q setting : Type) (noise ld : setting -> X -> R)
    (scale : setting -> X -> X) val0 (valt : X -> X -> Q -> R) g0 ga gb (rs : resampler n'.+1) (mv : mover n'.+1)
    law0 lpdf0 law lpdf (key : key) x0 xs b0 bs s0 ss qs (backward : bool) :
  (forall key w i j b, uses [:: key] (rs key w i j b)) ->
  (forall key w k, uses [:: key] (mv key w k)) ->
  size ss = size qs -> size bs = size qs -> size xs = size qs ->
  (* the full statement does not have the next hypothesis: T >= 3 with backward sampling *)
  (backward -> (1 < size qs)%N) ->
  uses [:: key] (als_kernel noise ld scale val0 valt g0 ga gb rs mv key x0 xs b0 bs s0 ss qs backward)
  /\ uses [:: key] (atps_kernel noise ld scale val0 valt g0 ga gb rs mv law0 lpdf0 law lpdf key x0 xs b0 bs s0 ss qs backward).
Proof. by move=> h1 h2 s1 s2 s3 bw; split; [apply: uses_als|apply: uses_atps]. Qed.
Print Assumptions C16_keys_al_s_atp_s_partial.

(** For T = 2 with backward sampling a key is consumed twice. *)
Theorem C16_keys_al_s_atp_s_refuted (X : finZmodType) (n' : nat) (Q setting : Type) (noise ld : setting -> X -> R)
    (scale : setting -> X -> X) val0 (valt : X -> X -> Q -> R) g0 ga gb
    law0 lpdf0 law lpdf (key : key) x0 x1 (b0 b1 : 'I_n'.+1) s0 s1 q :
  ~ uses [:: key] (als_kernel noise ld scale val0 valt g0 ga gb (@killing _) (@force_move _) key x0 [:: x1] b0 [:: b1] s0 [:: s1] [:: q] true)
  /\ ~ uses [:: key] (atps_kernel noise ld scale val0 valt g0 ga gb (@killing _) (@force_move _) law0 lpdf0 law lpdf
        key x0 [:: x1] b0 [:: b1] s0 [:: s1] [:: q] true).
Proof. by split; [apply: als_twice|apply: atps_twice] => *; [exact: live_killing|exact: live_force|exact: live_killing|exact: live_force]. Qed.
Print Assumptions C16_keys_al_s_atp_s_refuted.

(** ** C46 *)
(** al_csmc_s.py with backward scanning, every T >= 2. *)
Theorem C46_al_s_scanning_invariant (X : finZmodType) (n' : nat) (Q setting : Type) (noise ld : setting -> X -> R)
    (scale : setting -> X -> X) val0 (valt : X -> X -> Q -> R) g0 ga gb (rs : resampler n'.+1) (mv : mover n'.+1)
    (key : key) s0 ss qs :
  (forall s, prob_vec (noise s)) -> good_resampler rs ->
  (forall s, exists c, c != 0 /\ forall z, exp (ld s z) = c * noise s z) ->
  good_mover mv -> (0 < size qs)%N -> size ss = size qs ->
  leaves_invariant (size qs) (path_target val0 valt qs) (fun x0 xs b0 bs =>
    drop_weights (als_kernel noise ld scale val0 valt g0 ga gb rs mv key x0 xs b0 bs s0 ss qs false)).
Proof. by move=> h1 h2 h3 gm q0 sz; apply: als_inv. Qed.
Print Assumptions C46_al_s_scanning_invariant.

Theorem C46_al_s_scanning_force_move_error (X : finZmodType) (n' : nat) (Q setting : Type) (noise ld : setting -> X -> R)
    (scale : setting -> X -> X) val0 (valt : X -> X -> Q -> R) g0 ga gb (rs : resampler n'.+1)
    (c : R) (key : key) s0 ss qs :
  (forall s, prob_vec (noise s)) -> good_resampler rs ->
  (forall s, exists c, c != 0 /\ forall z, exp (ld s z) = c * noise s z) ->
  (0 < size qs)%N -> size ss = size qs ->
  nearly_invariant (size qs) (path_target val0 valt qs) (fun x0 xs b0 bs =>
    drop_weights (als_kernel noise ld scale val0 valt g0 ga gb rs (@force_move _) key x0 xs b0 bs s0 ss qs false))
    c (force_eps n'.+1 c).
Proof. by move=> h1 h2 h3 q0 sz; apply: als_near. Qed.
Print Assumptions C46_al_s_scanning_force_move_error.

(** Backward sampling: the full statement is for every T >= 2 and every [gb].  Here T >= 3, and the
    gradient at time 1 must not depend on the state of time 0, which is the wrong one (C28).  Without
    that condition the statement is false: [C46_al_s_three_steps_refuted]. *)
Theorem C46_al_s_sampling_invariant_partial (X : finZmodType) (n' : nat) (Q setting : Type) (noise ld : setting -> X -> R)
    (scale : setting -> X -> X) val0 (valt : X -> X -> Q -> R) g0 ga gb (rs : resampler n'.+1) (mv : mover n'.+1)
    (key : key) s0 ss q q' qs :
  (forall s, prob_vec (noise s)) -> good_resampler rs ->
  (forall s, exists c, c != 0 /\ forall z, exp (ld s z) = c * noise s z) ->
  good_mover mv -> size ss = (size qs).+2 ->
  (forall a a' b, gb a b q = gb a' b q) ->
  leaves_invariant (size qs).+2 (path_target val0 valt (q :: q' :: qs)) (fun x0 xs b0 bs =>
    drop_weights (als_kernel noise ld scale val0 valt g0 ga gb rs mv key x0 xs b0 bs s0 ss (q :: q' :: qs) true)).
Proof.
move=> h1 h2 h3 gm sz hb; rewrite -[(size qs).+2]/(size (q :: q' :: qs)).
by apply: als_inv => // _; split=> // q1 [<-].
Qed.
Print Assumptions C46_al_s_sampling_invariant_partial.

Theorem C46_al_s_sampling_force_move_error_partial (X : finZmodType) (n' : nat) (Q setting : Type) (noise ld : setting -> X -> R)
    (scale : setting -> X -> X) val0 (valt : X -> X -> Q -> R) g0 ga gb (rs : resampler n'.+1)
    (c : R) (key : key) s0 ss q q' qs :
  (forall s, prob_vec (noise s)) -> good_resampler rs ->
  (forall s, exists c, c != 0 /\ forall z, exp (ld s z) = c * noise s z) ->
  size ss = (size qs).+2 ->
  (forall a a' b, gb a b q = gb a' b q) ->
  nearly_invariant (size qs).+2 (path_target val0 valt (q :: q' :: qs)) (fun x0 xs b0 bs =>
    drop_weights (als_kernel noise ld scale val0 valt g0 ga gb rs (@force_move _) key x0 xs b0 bs s0 ss (q :: q' :: qs) true))
    c (force_eps n'.+1 c).
Proof.
move=> h1 h2 h3 sz hb; rewrite -[(size qs).+2]/(size (q :: q' :: qs)).
by apply: als_near => // _; split=> // q1 [<-].
Qed.
Print Assumptions C46_al_s_sampling_force_move_error_partial.

(** T = 2, backward sampling: never invariant. *)
Theorem C46_al_s_two_steps_refuted (X : finZmodType) (n' : nat) (Q setting : Type) (noise ld : setting -> X -> R)
    (scale : setting -> X -> X) val0 (valt : X -> X -> Q -> R) g0 ga gb (rs : resampler n'.+1) (mv : mover n'.+1)
    (key : key) s0 s1 q :
  ~ leaves_invariant 1 (path_target val0 valt [:: q]) (fun x0 xs b0 bs =>
      drop_weights (als_kernel noise ld scale val0 valt g0 ga gb rs mv key x0 xs b0 bs s0 [:: s1] [:: q] true)).
Proof. exact: als_two_not_invariant. Qed.
Print Assumptions C46_al_s_two_steps_refuted.

(** T = 3, backward sampling, two particles, two states, a flat target and a gradient [gb] at time 1
    that depends on the state of time 0: not invariant, whatever the mover. *)
Theorem C46_al_s_three_steps_refuted : exists (X : finZmodType) (setting : Type) (noise ld : setting -> X -> R)
    (scale : setting -> X -> X) (val0 : X -> R) (valt : X -> X -> unit -> R)
    (g0 : X -> X) (ga gb : X -> X -> unit -> X) (s0 : setting) (ss : seq setting),
  [/\ forall s, prob_vec (noise s), good_resampler (@multinomial 2), size ss = 2%N,
      forall s, exists c, c != 0 /\ forall z, exp (ld s z) = c * noise s z
    & forall (mv : mover 2) (key : key), (forall key w k, prob_vec w -> proper (mv key w k)) ->
      ~ leaves_invariant 2 (path_target val0 valt [:: tt; tt]) (fun x0 xs b0 bs =>
          drop_weights (als_kernel noise ld scale val0 valt g0 ga gb (@multinomial 2) mv key x0 xs b0 bs s0 ss [:: tt; tt] true))].
Proof.
exists [finZmodType of 'I_2], bool, t_noise, t_ld, t_scale, t_val0, t_valt, t_g0, t_ga, t_gb, false, [:: true; false].
split=> //; [exact: t_noiseP|exact: multinomial_good|exact: t_ldP|].
exact: als_three_not_invariant.
Qed.
Print Assumptions C46_al_s_three_steps_refuted.
Example ex_three_steps_mover : forall key (w : 'I_2 -> R) k, prob_vec w -> proper (barker_move key w k).
Proof. by move=> *; apply: barker_proper. Qed.

(** atp_csmc_s.py, every T >= 2, both backward modes: from every reference trajectory all particles
    of time 0 are at [a] with probability at least delta^n; no target that puts less mass there is
    left invariant. *)
Theorem C46_atp_s_refuted (X : finZmodType) (n' : nat) (Q setting : Type) (noise ld : setting -> X -> R)
    (scale : setting -> X -> X) val0 (valt : X -> X -> Q -> R) g0 ga gb (rs : resampler n'.+1) (mv : mover n'.+1)
    law0 lpdf0 law lpdf (a : X) (delta : R) s0 (key : key) ss qs (backward : bool) :
  (forall s, prob_vec (noise s)) -> (forall p, prob_vec (law0 p)) -> (forall p x, prob_vec (law p x)) ->
  good_resampler rs -> (forall key w k, prob_vec w -> proper (mv key w k)) ->
  0 <= delta -> (forall u, delta <= law0 (s0, u) a) ->
  (0 < size qs)%N -> size ss = size qs ->
  traj_sum (size qs) (fun x0 xs (b0 : 'I_n'.+1) bs => path_target val0 valt qs x0 xs * (x0 == a)%:R)
  < delta ^+ n'.+1 * traj_sum (size qs) (fun x0 xs (b0 : 'I_n'.+1) bs => path_target val0 valt qs x0 xs) ->
  ~ leaves_invariant (size qs) (path_target val0 valt qs) (fun x0 xs b0 bs =>
      atps_kernel noise ld scale val0 valt g0 ga gb rs mv law0 lpdf0 law lpdf key x0 xs b0 bs s0 ss qs backward).
Proof. by move=> h1 h2 h3 h4 h5 d0 h6 q0 sz lt; exact: (atps_not_invariant h1 h2 h3 h4 h5 d0 h6 q0 sz lt). Qed.
Print Assumptions C46_atp_s_refuted.

(** ** The hypotheses are met *)
(** Such a target, for every number of particles and every T, on the group with two elements. *)
Example ex_atp_s_target n' m :
  (forall p, prob_vec (w_law0 p)) /\ (forall u, 1 / 2%:R <= w_law0 (tt, u) 0) /\
  traj_sum m (fun x0 xs (b0 : 'I_n'.+1) bs => path_target (w_val0 n') w_valt (nseq m tt) x0 xs * (x0 == 0)%:R)
  < (1 / 2%:R) ^+ n'.+1 * traj_sum m (fun x0 xs (b0 : 'I_n'.+1) bs => path_target (w_val0 n') w_valt (nseq m tt) x0 xs).
Proof. by split; [move=> p; exact: w_law_prob|split; [move=> u; exact: lexx|exact: two_states]]. Qed.
(** Resampler, mover and noise. *)
Example ex_smooth_callbacks (X : finZmodType) n' (ld : unit -> X -> R) :
  [/\ good_resampler (@multinomial n'.+1), good_resampler (@killing n'), good_mover (@barker_move n'.+1),
      forall s, prob_vec (ex_noise ld s) & forall s, exists c, c != 0 /\ forall z, exp (ld s z) = c * ex_noise ld s z].
Proof.
split; [exact: multinomial_good|exact: killing_good|exact: barker_good|exact: ex_noise_prob|exact: ex_noise_ld].
Qed.
(** A potential with gradients, on the line: minus half the square of the increment. *)
Example ex_slopes :
  [/\ forall a b v, ex_dot (a + b) v = ex_dot a v + ex_dot b v,
      forall x y q, slope ex_dot (fun z => ex_valt z y q) x (y - x)
    & forall x y q, slope ex_dot (fun z => ex_valt x z q) y (x - y)].
Proof. exact: ex_slopes_hold. Qed.
(** A population and indices for C28. *)
Example ex_predecessors : exists (x0 : {ffun 'I_2 -> [finZmodType of 'I_2]}) (b0 b1 i k : 'I_2), x0 k != x0 b0 /\ i != b1.
Proof. by exists [ffun i => i], ord0, ord0, (lift ord0 ord0), (lift ord0 ord0); rewrite !ffunE. Qed.
