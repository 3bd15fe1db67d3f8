(** * Property theorems C88: al_csmc_s.py on R^d, given all particles.
    Statements only; the proofs are in FrozenPath, SmoothBack, DensitySmooth, DensitySmoothFinal.

    Parameters, step sizes, auxiliary variables and particles are functions of time, [y 0] and
    [later m y] = y 1, ..., y m, and so on; there are T = m + 1 time steps.  [val0], [valt]:
    log-potentials; [g0], [ga], [gb]: their gradients (arbitrary functions).  [s t] = (delta_t, ell_t). *)
From Coq Require Import Reals.
From mathcomp Require Import all_ssreflect all_algebra.
From Verif Require Import RInst Prog ProgTheory Resampling Spec ResamplingProofs Csmc CsmcInvariance AuxCsmc AuxFinal.
From Verif Require Import Gauss GaussSpec MarginalFinal DensitySpec DensityFinal Smooth SmoothSpec DensitySmoothSpec DensitySmoothFinal.

Set Implicit Arguments.
Unset Strict Implicit.
Unset Printing Implicit Defensive.
Import GRing.Theory Num.Theory Order.TTheory.
Local Open Scope ring_scope.

(** Backward scanning, every T >= 2. *)
Theorem C88_al_s_density (d n' : nat) (Q : Type) (rs : resampler n'.+1) (mv : mover n'.+1)
    (val0 : 'cV[R]_d -> R) (valt : 'cV[R]_d -> 'cV[R]_d -> Q -> R)
    (g0 : 'cV[R]_d -> 'cV[R]_d) (ga gb : 'cV[R]_d -> 'cV[R]_d -> Q -> 'cV[R]_d)
    (key : key) q s u (y : nat -> {ffun 'I_n'.+1 -> 'cV[R]_d}) m :
  good_resampler rs -> good_mover mv -> (0 < m)%N ->
  keeps_density (y 0%N) (later m y)
    (smooth_density (fun s z => gauss_kernel (s.2 / 2%:R)%:M z 0) (fun s g => (s.1 / 2%:R) *: g)
       val0 valt g0 ga gb q s u y m.+1)
    (fun b0 bs => drop_weights (als_sweep (@sizes_ld d) (@sizes_step d) val0 valt g0 ga gb rs mv key b0 bs
       (y 0%N) (later m y) (u 0%N) (later m u) (s 0%N) (later m s) (later m q) false)).
Proof. by move=> gr gm m0; rewrite smooth_gauss; apply: als_density. Qed.
Print Assumptions C88_al_s_density.

Theorem C88_al_s_force_move_error (d n' : nat) (Q : Type) (rs : resampler n'.+1)
    (val0 : 'cV[R]_d -> R) (valt : 'cV[R]_d -> 'cV[R]_d -> Q -> R)
    (g0 : 'cV[R]_d -> 'cV[R]_d) (ga gb : 'cV[R]_d -> 'cV[R]_d -> Q -> 'cV[R]_d)
    (key : key) q s u (y : nat -> {ffun 'I_n'.+1 -> 'cV[R]_d}) m c :
  good_resampler rs -> (0 < m)%N ->
  nearly_keeps_density (y 0%N) (later m y)
    (smooth_density (fun s z => gauss_kernel (s.2 / 2%:R)%:M z 0) (fun s g => (s.1 / 2%:R) *: g)
       val0 valt g0 ga gb q s u y m.+1)
    (fun b0 bs => drop_weights (als_sweep (@sizes_ld d) (@sizes_step d) val0 valt g0 ga gb rs (@force_move _) key b0 bs
       (y 0%N) (later m y) (u 0%N) (later m u) (s 0%N) (later m s) (later m q) false))
    c (force_eps n'.+1 c).
Proof. by move=> gr m0; rewrite smooth_gauss; apply: als_density_error => // *; exact: force_bound. Qed.
Print Assumptions C88_al_s_force_move_error.

(** Backward sampling: the full statement is for every T >= 2 and every [gb].  Here T >= 3, and the
    gradient [gb] of time 1 must not depend on the state of time 0, as in C46; false for T = 2, below. *)
Theorem C88_al_s_sampling_density_partial (d n' : nat) (Q : Type) (rs : resampler n'.+1) (mv : mover n'.+1)
    (val0 : 'cV[R]_d -> R) (valt : 'cV[R]_d -> 'cV[R]_d -> Q -> R)
    (g0 : 'cV[R]_d -> 'cV[R]_d) (ga gb : 'cV[R]_d -> 'cV[R]_d -> Q -> 'cV[R]_d)
    (key : key) q s u (y : nat -> {ffun 'I_n'.+1 -> 'cV[R]_d}) m :
  good_resampler rs -> good_mover mv -> (1 < m)%N -> (forall a a' b, gb a b (q 1%N) = gb a' b (q 1%N)) ->
  keeps_density (y 0%N) (later m y)
    (smooth_density (fun s z => gauss_kernel (s.2 / 2%:R)%:M z 0) (fun s g => (s.1 / 2%:R) *: g)
       val0 valt g0 ga gb q s u y m.+1)
    (fun b0 bs => drop_weights (als_sweep (@sizes_ld d) (@sizes_step d) val0 valt g0 ga gb rs mv key b0 bs
       (y 0%N) (later m y) (u 0%N) (later m u) (s 0%N) (later m s) (later m q) true)).
Proof. by move=> gr gm m1 hb; rewrite smooth_gauss; apply: als_density => //; exact: ltnW. Qed.
Print Assumptions C88_al_s_sampling_density_partial.

Theorem C88_al_s_sampling_force_move_error_partial (d n' : nat) (Q : Type) (rs : resampler n'.+1)
    (val0 : 'cV[R]_d -> R) (valt : 'cV[R]_d -> 'cV[R]_d -> Q -> R)
    (g0 : 'cV[R]_d -> 'cV[R]_d) (ga gb : 'cV[R]_d -> 'cV[R]_d -> Q -> 'cV[R]_d)
    (key : key) q s u (y : nat -> {ffun 'I_n'.+1 -> 'cV[R]_d}) m c :
  good_resampler rs -> (1 < m)%N -> (forall a a' b, gb a b (q 1%N) = gb a' b (q 1%N)) ->
  nearly_keeps_density (y 0%N) (later m y)
    (smooth_density (fun s z => gauss_kernel (s.2 / 2%:R)%:M z 0) (fun s g => (s.1 / 2%:R) *: g)
       val0 valt g0 ga gb q s u y m.+1)
    (fun b0 bs => drop_weights (als_sweep (@sizes_ld d) (@sizes_step d) val0 valt g0 ga gb rs (@force_move _) key b0 bs
       (y 0%N) (later m y) (u 0%N) (later m u) (s 0%N) (later m s) (later m q) true))
    c (force_eps n'.+1 c).
Proof.
move=> gr m1 hb; rewrite smooth_gauss; apply: als_density_error => //; first exact: ltnW.
by move=> *; exact: force_bound.
Qed.
Print Assumptions C88_al_s_sampling_force_move_error_partial.

(** T = 2, backward sampling: never, whatever the gradients, the particles and the mover. *)
Theorem C88_al_s_two_steps_refuted (d n' : nat) (Q : Type) (rs : resampler n'.+1) (mv : mover n'.+1)
    (val0 : 'cV[R]_d -> R) (valt : 'cV[R]_d -> 'cV[R]_d -> Q -> R)
    (g0 : 'cV[R]_d -> 'cV[R]_d) (ga gb : 'cV[R]_d -> 'cV[R]_d -> Q -> 'cV[R]_d)
    (key : key) q s u (y : nat -> {ffun 'I_n'.+1 -> 'cV[R]_d}) :
  ~ keeps_density (y 0%N) (later 1 y)
    (smooth_density (fun s z => gauss_kernel (s.2 / 2%:R)%:M z 0) (fun s g => (s.1 / 2%:R) *: g)
       val0 valt g0 ga gb q s u y 2)
    (fun b0 bs => drop_weights (als_sweep (@sizes_ld d) (@sizes_step d) val0 valt g0 ga gb rs mv key b0 bs
       (y 0%N) (later 1 y) (u 0%N) (later 1 u) (s 0%N) (later 1 s) (later 1 q) true)).
Proof. by rewrite smooth_gauss; exact: als_two_density. Qed.
Print Assumptions C88_al_s_two_steps_refuted.

(** On finite groups, where the whole kernel is modelled, it is its draws of noise followed by the
    sweep; [full_grad] is the full gradient (C26). *)
Theorem C88_al_s_kernel_is_sweep (X : finZmodType) (n' : nat) (Q setting : Type) (noise ld : setting -> X -> R)
    (scale : setting -> X -> X) (rs : resampler n'.+1) (mv : mover n'.+1) val0 (valt : X -> X -> Q -> R)
    (g0 : X -> X) (ga gb : X -> X -> Q -> X)
    (key : key) x0 xs b0 bs s0 ss qs (backward : bool) f :
  let gs := full_grad ga gb (g0 x0) x0 xs qs in
  E (als_kernel noise ld scale val0 valt g0 ga gb rs mv key x0 xs b0 bs s0 ss qs backward) f
  = E (do (u0, us, y0, ys) <- aux_draws noise key x0 xs b0 bs s0 ss (x0 + scale s0 (head 0 gs)) (sm_aux scale xs ss (behead gs));
       als_sweep ld scale val0 valt g0 ga gb rs mv key b0 bs y0 ys u0 us s0 ss qs backward) f.
Proof. exact: als_split. Qed.
Print Assumptions C88_al_s_kernel_is_sweep.

(** The conditions are met by the killing resampling and the Barker move of the code, and by a gradient at
    time 1 that ignores the state of time 0. *)
Example ex_al_s (d n' : nat) : [/\ good_resampler (@killing n'.+1), good_mover (@barker_move n'.+1)
  & exists gb : 'cV[R]_d -> 'cV[R]_d -> unit -> 'cV[R]_d, (forall a a' b q, gb a b q = gb a' b q) /\ forall a, gb a a tt = a].
Proof.
split; [exact: killing_good|exact: barker_good|].
by exists (fun _ b _ => b).
Qed.
