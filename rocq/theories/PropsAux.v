(** * Property theorems C17-C20 (and C16, C29 for these kernels): rw_csmc.py,
    l_csmc_f.py, al_csmc_f.py.  Statements only; the proofs are in the *Proofs files.

    States range over an arbitrary finite abelian group [X] standing for R^d; [setting]
    holds the step sizes of one time; [noise s] is the law of the Gaussian noise at
    setting [s]; [scale s g] is the gradient step; [g0], [gt] stand for the
    gradients and are arbitrary functions. *)
From Coq Require Import Reals.
From mathcomp Require Import all_ssreflect all_algebra.
From Verif Require Import RInst Prog ProgTheory Resampling Spec Csmc CsmcInvariance AuxCsmc AuxStruct AuxFinal.

Set Implicit Arguments.
Unset Strict Implicit.
Unset Printing Implicit Defensive.
Import GRing.Theory Num.Theory Order.TTheory.
Local Open Scope ring_scope.

(** ** C17 *)
(** Every noise law that is even; every state is finite in exact arithmetic. *)
Theorem C17_rw_invariant (X : finZmodType) (n' : nat) (Q setting : Type) (noise : setting -> X -> R)
    (rs : resampler n'.+1) (G0 : X -> R) (Gt : X -> X -> Q -> R) (mv : mover n'.+1)
    (key : key) (s0 : setting) ss qs (backward : bool) :
  (forall s, prob_vec (noise s)) -> good_resampler rs -> good_mover mv ->
  (forall s z, noise s (- z) = noise s z) -> size ss = size qs ->
  leaves_invariant (size qs) (path_target G0 Gt qs) (fun x0 xs b0 bs =>
    drop_weights (rw_kernel noise rs mv G0 Gt xpredT key x0 xs b0 bs s0 ss qs backward)).
Proof. by move=> *; apply: rw_inv. Qed.
Print Assumptions C17_rw_invariant.

Theorem C17_rw_force_move_error (X : finZmodType) (n' : nat) (Q setting : Type) (noise : setting -> X -> R)
    (rs : resampler n'.+1) (G0 : X -> R) (Gt : X -> X -> Q -> R) (c : R)
    (key : key) (s0 : setting) ss qs (backward : bool) :
  (forall s, prob_vec (noise s)) -> good_resampler rs ->
  (forall s z, noise s (- z) = noise s z) -> size ss = size qs ->
  nearly_invariant (size qs) (path_target G0 Gt qs) (fun x0 xs b0 bs =>
    drop_weights (rw_kernel noise rs (@force_move _) G0 Gt xpredT key x0 xs b0 bs s0 ss qs backward))
    c (force_eps n'.+1 c).
Proof. by move=> *; apply: rw_near. Qed.
Print Assumptions C17_rw_force_move_error.

(** ** C18 *)
(** The kernel ends with this guard, whatever program [m] (in floating-point
    arithmetic, possibly producing NaN) computes the trajectory. *)
Theorem C18_guard_finite (X I L : Type) (finite : X -> bool) (xstar : seq X) (bstar : seq I)
    (m : prog (seq X * seq I * L)) :
  all finite xstar ->
  always (fun r => all finite r.1.1) (do r <- m; Ret (rw_guard finite xstar bstar r)).
Proof. exact: guard_finite. Qed.
Print Assumptions C18_guard_finite.

Theorem C18_guard_cases (X I L : Type) (finite : X -> bool) (xstar : seq X) (bstar : seq I)
    (r : seq X * seq I * L) :
  (all finite r.1.1 -> rw_guard finite xstar bstar r = r)
  /\ (~~ all finite r.1.1 -> rw_guard finite xstar bstar r = (xstar, bstar, r.2)).
Proof. exact: guard_cases. Qed.
Print Assumptions C18_guard_cases.

Theorem C18_rw_finite (X : finZmodType) (n' : nat) (Q setting : Type) (noise : setting -> X -> R)
    (rs : resampler n'.+1) (mv : mover n'.+1) G0 (Gt : X -> X -> Q -> R) (finite : X -> bool)
    (key : key) x0 xs b0 bs s0 ss qs (backward : bool) :
  all finite (x0 :: xs) ->
  always (fun r => all finite r.1.1) (rw_kernel noise rs mv G0 Gt finite key x0 xs b0 bs s0 ss qs backward).
Proof. exact: rw_finite. Qed.
Print Assumptions C18_rw_finite.

(** ** C19 *)
(** [ld s z] is the unnormalised log-density of the noise, as evaluated by the code. *)
Theorem C19_al_f_invariant (X : finZmodType) (n' : nat) (Q setting : Type) (noise ld : setting -> X -> R)
    (scale : setting -> X -> X) (rs : resampler n'.+1) (G0 : X -> R) (Gt : X -> X -> Q -> R)
    (g0 : X -> X) (gt : X -> X -> Q -> X) (mv : mover n'.+1)
    (key : key) (s0 : setting) ss qs (backward : bool) :
  (forall s, prob_vec (noise s)) -> good_resampler rs ->
  (forall s, exists c, c != 0 /\ forall z, exp (ld s z) = c * noise s z) ->
  good_mover mv -> size ss = size qs ->
  leaves_invariant (size qs) (path_target G0 Gt qs) (fun x0 xs b0 bs =>
    drop_weights (al_kernel noise ld scale rs mv G0 Gt g0 gt key x0 xs b0 bs s0 ss qs backward)).
Proof. by move=> *; apply: al_inv. Qed.
Print Assumptions C19_al_f_invariant.

Theorem C19_al_f_force_move_error (X : finZmodType) (n' : nat) (Q setting : Type) (noise ld : setting -> X -> R)
    (scale : setting -> X -> X) (rs : resampler n'.+1) (G0 : X -> R) (Gt : X -> X -> Q -> R)
    (g0 : X -> X) (gt : X -> X -> Q -> X) (c : R)
    (key : key) (s0 : setting) ss qs (backward : bool) :
  (forall s, prob_vec (noise s)) -> good_resampler rs ->
  (forall s, exists c, c != 0 /\ forall z, exp (ld s z) = c * noise s z) ->
  size ss = size qs ->
  nearly_invariant (size qs) (path_target G0 Gt qs) (fun x0 xs b0 bs =>
    drop_weights (al_kernel noise ld scale rs (@force_move _) G0 Gt g0 gt key x0 xs b0 bs s0 ss qs backward))
    c (force_eps n'.+1 c).
Proof. by move=> *; apply: al_near. Qed.
Print Assumptions C19_al_f_force_move_error.

(** ** C20 *)
(** The correction [logH] is the log of the density of the other particles given
    one particle, the auxiliary variable being summed out, up to a factor that is the
    same for all particles (C21 proves this of the formula in the code). *)
Theorem C20_l_f_invariant (X : finZmodType) (n' : nat) (Q setting : Type) (noise : setting -> X -> R)
    (scale : setting -> X -> X) (logH : setting -> {ffun 'I_n'.+1 -> X} -> X -> X -> R)
    (rs : resampler n'.+1) (G0 : X -> R) (Gt : X -> X -> Q -> R)
    (g0 : X -> X) (gt : X -> X -> Q -> X) (mv : mover n'.+1)
    (key : key) (s0 : setting) ss qs (backward : bool) :
  (forall s, prob_vec (noise s)) -> good_resampler rs ->
  (forall s, exists S : {ffun 'I_n'.+1 -> X} -> R, forall (x : {ffun 'I_n'.+1 -> X}) b phi,
     \sum_u noise s (u - (x b + phi)) * \prod_(i | i != b) noise s (x i - u)
     = S x * exp (logH s x phi (x b))) ->
  good_mover mv -> size ss = size qs ->
  leaves_invariant (size qs) (path_target G0 Gt qs) (fun x0 xs b0 bs =>
    drop_weights (l_kernel noise scale logH rs mv G0 Gt g0 gt key x0 xs b0 bs s0 ss qs backward)).
Proof. by move=> *; apply: l_inv. Qed.
Print Assumptions C20_l_f_invariant.

Theorem C20_l_f_force_move_error (X : finZmodType) (n' : nat) (Q setting : Type) (noise : setting -> X -> R)
    (scale : setting -> X -> X) (logH : setting -> {ffun 'I_n'.+1 -> X} -> X -> X -> R)
    (rs : resampler n'.+1) (G0 : X -> R) (Gt : X -> X -> Q -> R)
    (g0 : X -> X) (gt : X -> X -> Q -> X) (c : R)
    (key : key) (s0 : setting) ss qs (backward : bool) :
  (forall s, prob_vec (noise s)) -> good_resampler rs ->
  (forall s, exists S : {ffun 'I_n'.+1 -> X} -> R, forall (x : {ffun 'I_n'.+1 -> X}) b phi,
     \sum_u noise s (u - (x b + phi)) * \prod_(i | i != b) noise s (x i - u)
     = S x * exp (logH s x phi (x b))) ->
  size ss = size qs ->
  nearly_invariant (size qs) (path_target G0 Gt qs) (fun x0 xs b0 bs =>
    drop_weights (l_kernel noise scale logH rs (@force_move _) G0 Gt g0 gt key x0 xs b0 bs s0 ss qs backward))
    c (force_eps n'.+1 c).
Proof. by move=> *; apply: l_near. Qed.
Print Assumptions C20_l_f_force_move_error.

(** Non-vacuity: for every even function [ld] on a finite group, the normalised
    law meets the hypotheses on the noise, and a correction exists; for the
    resampling schemes and the move see [C10_code_contracts]. *)
Example ex_aux_hypotheses (X : finZmodType) (n' : nat) (setting : Type) (ld : setting -> X -> R) (s : setting) :
  (forall z, ld s (- z) = ld s z) ->
  [/\ prob_vec (ex_noise ld s), forall z, ex_noise ld s (- z) = ex_noise ld s z,
      exists c, c != 0 /\ forall z, exp (ld s z) = c * ex_noise ld s z
    & exists S : {ffun 'I_n'.+1 -> X} -> R, forall (x : {ffun 'I_n'.+1 -> X}) b phi,
     \sum_u ex_noise ld s (u - (x b + phi)) * \prod_(i | i != b) ex_noise ld s (x i - u)
     = S x * exp (ex_logH ld s x phi (x b))].
Proof.
by move=> ev; split; [exact: ex_noise_prob|exact: ex_noise_even|exact: ex_noise_ld|exact: ex_logH_ok].
Qed.

(** ** C16 for these kernels *)
Theorem C16_keys_rw_l_al (X : finZmodType) (n' : nat) (Q setting : Type) (noise ld : setting -> X -> R)
    (scale : setting -> X -> X) (logH : setting -> {ffun 'I_n'.+1 -> X} -> X -> X -> R)
    (rs : resampler n'.+1) (mv : mover n'.+1) G0 (Gt : X -> X -> Q -> R) (g0 : X -> X) (gt : X -> X -> Q -> X)
    (finite : X -> bool) (key : key) x0 xs b0 bs s0 ss qs (backward : bool) :
  (forall key w i j b, uses [:: key] (rs key w i j b)) ->
  (forall key w k, uses [:: key] (mv key w k)) ->
  [/\ uses [:: key] (rw_kernel noise rs mv G0 Gt finite key x0 xs b0 bs s0 ss qs backward),
      uses [:: key] (l_kernel noise scale logH rs mv G0 Gt g0 gt key x0 xs b0 bs s0 ss qs backward)
    & uses [:: key] (al_kernel noise ld scale rs mv G0 Gt g0 gt key x0 xs b0 bs s0 ss qs backward)].
Proof. exact: uses_three. Qed.
Print Assumptions C16_keys_rw_l_al.

(** ** C29 for these kernels: forward passes carry the reference *)
Theorem C29_reference_rw_l_al (X : finZmodType) (n' : nat) (Q setting : Type) (noise ld : setting -> X -> R)
    (scale : setting -> X -> X) (logH : setting -> {ffun 'I_n'.+1 -> X} -> X -> X -> R)
    (rs : resampler n'.+1) G0 (Gt : X -> X -> Q -> R) (g0 : X -> X) (gt : X -> X -> Q -> X)
    (key : key) x0 xs b0 bs s0 ss qs :
  (forall key w i j, always (fun A : {ffun 'I_n'.+1 -> 'I_n'.+1} => A j = i) (rs key w i j true)) ->
  size ss = size qs -> size bs = size qs -> size xs = size qs ->
  [/\ always (carries x0 xs b0 bs) (rw_forward noise rs G0 Gt key x0 xs b0 bs s0 ss qs),
      always (carries x0 xs b0 bs) (l_forward noise scale logH rs G0 Gt g0 gt key x0 xs b0 bs s0 ss qs)
    & always (fun r => carries x0 xs b0 bs r.1) (al_forward noise ld scale rs G0 Gt g0 gt key x0 xs b0 bs s0 ss qs)].
Proof. exact: three_carry. Qed.
Print Assumptions C29_reference_rw_l_al.

(** The returned arrays have the shapes of the reference, and the state only changes
    where the index does (C14 for these kernels). *)
Theorem C29_shapes_rw_l_al (X : finZmodType) (n' : nat) (Q setting : Type) (noise ld : setting -> X -> R)
    (scale : setting -> X -> X) (logH : setting -> {ffun 'I_n'.+1 -> X} -> X -> X -> R)
    (rs : resampler n'.+1) (mv : mover n'.+1) G0 (Gt : X -> X -> Q -> R) (g0 : X -> X) (gt : X -> X -> Q -> X)
    (key : key) x0 xs b0 bs s0 ss qs (finite : X -> bool) (backward : bool) :
  (forall key w i j, always (fun A : {ffun 'I_n'.+1 -> 'I_n'.+1} => A j = i) (rs key w i j true)) ->
  size ss = size qs -> size bs = size qs -> size xs = size qs ->
  [/\ always (keeps_shape x0 xs b0 bs) (rw_kernel noise rs mv G0 Gt finite key x0 xs b0 bs s0 ss qs backward),
      always (keeps_shape x0 xs b0 bs) (l_kernel noise scale logH rs mv G0 Gt g0 gt key x0 xs b0 bs s0 ss qs backward)
    & always (keeps_shape x0 xs b0 bs) (al_kernel noise ld scale rs mv G0 Gt g0 gt key x0 xs b0 bs s0 ss qs backward)].
Proof. by move=> *; apply: three_shape. Qed.
Print Assumptions C29_shapes_rw_l_al.
