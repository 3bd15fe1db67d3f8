(** * Property theorems C52-C55: csmc.py, rw_csmc.py, al_csmc_f.py and l_csmc_f.py on states of
    any type, given all particles.  Statements only; the proofs are in the Density* files.

    In C10, C17, C19 and C20 states range over a finite set, which stands for R^d.  Here they
    do not: all particles (and auxiliary variables) are given, sums run over the indices
    of the reference, and densities multiply. *)
From Coq Require Import Reals.
From mathcomp Require Import all_ssreflect all_algebra.
From Verif Require Import RInst Prog Resampling Spec Csmc CsmcInvariance AuxCsmc Gauss GaussSpec.
From Verif Require Import DensitySpec DensityModel DensityProofs DensityFinal Integral.

Set Implicit Arguments.
Unset Strict Implicit.
Unset Printing Implicit Defensive.
Import GRing.Theory Num.Theory Order.TTheory.
Local Open Scope ring_scope.

(** ** C52 *)
(** csmc.py with ancestor tracing.  [D0 b y], [Dt p xm b y]: densities of the particles of a
    generation [y] other than the reference [y b], given ancestors [xm].  The expectation of
    the forward pass carries the densities of all proposals and the probabilities of
    all ancestors; both sides are the joint density of the path, its indices, and all particles. *)
Theorem C52_csmc_density (X : Type) (n' : nat) (P Q : Type) (md : model X n' P Q)
    (rs : resampler n'.+1) (mv : mover n'.+1) (D0 : 'I_n'.+1 -> {ffun 'I_n'.+1 -> X} -> R)
    (Dt : P -> {ffun 'I_n'.+1 -> X} -> 'I_n'.+1 -> {ffun 'I_n'.+1 -> X} -> R)
    (key : key) ps qs (y0 : {ffun 'I_n'.+1 -> X}) ys (f : seq X -> seq 'I_n'.+1 -> R) :
  alike0 md D0 -> aliket md Dt ps -> good_resampler rs -> good_mover mv ->
  size ps = size qs -> size ys = size qs ->
  idx_sum (size qs) (fun b0 bs => path_target (Gamma0 md) (Gammat md) qs (y0 b0) (pick ys bs) *
    E (drop_weights (kernel rs mv (observed_model md D0 Dt b0 y0) key (y0 b0) (pick ys bs) b0 bs
         (obs_params ps bs ys) qs false true)) (fun r => f r.1 r.2))
  = idx_sum (size qs) (fun b0 bs => path_target (Gamma0 md) (Gammat md) qs (y0 b0) (pick ys bs) *
      E (forward_pass rs (observed_model md D0 Dt b0 y0) key (y0 b0) (pick ys bs) b0 bs (obs_params ps bs ys) qs true)
        (fun=> f (y0 b0 :: pick ys bs) (b0 :: bs))).
Proof. by move=> *; apply: csmc_density. Qed.
Print Assumptions C52_csmc_density.

Theorem C52_csmc_force_move_error (X : Type) (n' : nat) (P Q : Type) (md : model X n' P Q)
    (rs : resampler n'.+1) (D0 : 'I_n'.+1 -> {ffun 'I_n'.+1 -> X} -> R)
    (Dt : P -> {ffun 'I_n'.+1 -> X} -> 'I_n'.+1 -> {ffun 'I_n'.+1 -> X} -> R)
    (key : key) ps qs (y0 : {ffun 'I_n'.+1 -> X}) ys (f : seq X -> seq 'I_n'.+1 -> R) c :
  alike0 md D0 -> aliket md Dt ps -> good_resampler rs -> (forall xs bs, `|f xs bs| <= c) ->
  size ps = size qs -> size ys = size qs ->
  let joint g := idx_sum (size qs) (fun b0 bs => path_target (Gamma0 md) (Gammat md) qs (y0 b0) (pick ys bs) *
      E (forward_pass rs (observed_model md D0 Dt b0 y0) key (y0 b0) (pick ys bs) b0 bs (obs_params ps bs ys) qs true)
        (fun=> g (y0 b0 :: pick ys bs) (b0 :: bs))) in
  `| idx_sum (size qs) (fun b0 bs => path_target (Gamma0 md) (Gammat md) qs (y0 b0) (pick ys bs) *
       E (drop_weights (kernel rs (@force_move _) (observed_model md D0 Dt b0 y0) key (y0 b0) (pick ys bs) b0 bs
         (obs_params ps bs ys) qs false true)) (fun r => f r.1 r.2))
     - joint f | <= joint (fun _ _ => force_eps n'.+1 c).
Proof. by move=> *; apply: csmc_nearly. Qed.
Print Assumptions C52_csmc_force_move_error.

(** The requirement on the densities is met by particles drawn independently. *)
Example ex_independent (X : Type) (n' : nat) (P Q : Type) (md : model X n' P Q) ps :
  alike0 md (fun b y => \prod_(i | i != b) exp (M0_logpdf md y i))
  /\ aliket md (fun p xm b y => \prod_(i | i != b) exp (Mt_logpdf md xm y p i)) ps.
Proof. by split; [exact: independent_alike0|exact: independent_aliket]. Qed.

(** ** C53 *)
(** rw_csmc.py on R^d.  [s = (delta, ell)]; u_t ~ N(reference, ell/2 I), other
    particles ~ N(u_t, ell/2 I).  With ancestor tracing or backward sampling. *)
Theorem C53_rw_density (d n' : nat) (Q : Type) (rs : resampler n'.+1) (mv : mover n'.+1)
    (G0 : 'cV[R]_d -> R) (Gt : 'cV[R]_d -> 'cV[R]_d -> Q -> R)
    (key : key) (u0 : 'cV[R]_d) us (s0 : R * R) ss qs (y0 : {ffun 'I_n'.+1 -> 'cV[R]_d}) ys (backward : bool) :
  good_resampler rs -> size qs = size ys -> good_mover mv ->
  keeps_density y0 ys
    (fun b0 bs => path_target G0 Gt qs (y0 b0) (pick ys bs)
      * aux_density (fun s z => gauss_kernel (s.2 / 2%:R)%:M z 0) (fun _ _ => 0) (fun _ _ _ _ => 0)
          u0 us s0 ss qs y0 ys b0 bs)
    (fun b0 bs => drop_weights (rw_sweep G0 Gt rs mv key b0 bs y0 ys qs backward)).
Proof. by move=> *; apply: rw_keeps. Qed.
Print Assumptions C53_rw_density.

Theorem C53_rw_force_move_error (d n' : nat) (Q : Type) (rs : resampler n'.+1)
    (G0 : 'cV[R]_d -> R) (Gt : 'cV[R]_d -> 'cV[R]_d -> Q -> R)
    (key : key) (u0 : 'cV[R]_d) us (s0 : R * R) ss qs (y0 : {ffun 'I_n'.+1 -> 'cV[R]_d}) ys (backward : bool) c :
  good_resampler rs -> size qs = size ys ->
  nearly_keeps_density y0 ys
    (fun b0 bs => path_target G0 Gt qs (y0 b0) (pick ys bs)
      * aux_density (fun s z => gauss_kernel (s.2 / 2%:R)%:M z 0) (fun _ _ => 0) (fun _ _ _ _ => 0)
          u0 us s0 ss qs y0 ys b0 bs)
    (fun b0 bs => drop_weights (rw_sweep G0 Gt rs (@force_move _) key b0 bs y0 ys qs backward))
    c (force_eps n'.+1 c).
Proof. by move=> *; apply: rw_nearly. Qed.
Print Assumptions C53_rw_force_move_error.

(** The model of the whole kernel (on finite groups) is its draws followed by this sweep. *)
Theorem C53_rw_kernel_is_sweep (X : finZmodType) (n' : nat) (Q setting : Type) (noise : setting -> X -> R)
    (rs : resampler n'.+1) (mv : mover n'.+1) G0 (Gt : X -> X -> Q -> R) (finite : X -> bool)
    (key : key) x0 xs b0 bs s0 ss qs (backward : bool) f :
  E (rw_kernel noise rs mv G0 Gt finite key x0 xs b0 bs s0 ss qs backward) f
  = E (do (u0, us, y0, ys) <- aux_draws noise key x0 xs b0 bs s0 ss x0 (rw_aux xs);
       do r <- rw_sweep G0 Gt rs mv key b0 bs y0 ys qs backward;
       Ret (rw_guard finite (x0 :: xs) (b0 :: bs) r)) f.
Proof. exact: rw_split. Qed.
Print Assumptions C53_rw_kernel_is_sweep.

(** ** C54 *)
(** al_csmc_f.py on R^d: u_t ~ N(reference + delta/2 grad, ell/2 I). *)
Theorem C54_al_density (d n' : nat) (Q : Type) (rs : resampler n'.+1) (mv : mover n'.+1)
    (G0 : 'cV[R]_d -> R) (Gt : 'cV[R]_d -> 'cV[R]_d -> Q -> R)
    (g0 : 'cV[R]_d -> 'cV[R]_d) (gt : 'cV[R]_d -> 'cV[R]_d -> Q -> 'cV[R]_d)
    (key : key) u0 us s0 ss qs (y0 : {ffun 'I_n'.+1 -> 'cV[R]_d}) ys (backward : bool) :
  good_resampler rs -> size qs = size ys -> size ss = size ys -> size us = size ys -> good_mover mv ->
  keeps_density y0 ys
    (fun b0 bs => path_target G0 Gt qs (y0 b0) (pick ys bs)
      * aux_density (fun s z => gauss_kernel (s.2 / 2%:R)%:M z 0)
          (fun x s => (s.1 / 2%:R) *: g0 x) (fun x x' s q => (s.1 / 2%:R) *: gt x x' q)
          u0 us s0 ss qs y0 ys b0 bs)
    (fun b0 bs => drop_weights (al_sweep (@sizes_ld d) (@sizes_step d) G0 Gt g0 gt rs mv key b0 bs y0 ys u0 us s0 ss qs backward)).
Proof. by rewrite half_step half_step_t; move=> *; apply: al_keeps. Qed.
Print Assumptions C54_al_density.

Theorem C54_al_force_move_error (d n' : nat) (Q : Type) (rs : resampler n'.+1)
    (G0 : 'cV[R]_d -> R) (Gt : 'cV[R]_d -> 'cV[R]_d -> Q -> R)
    (g0 : 'cV[R]_d -> 'cV[R]_d) (gt : 'cV[R]_d -> 'cV[R]_d -> Q -> 'cV[R]_d)
    (key : key) u0 us s0 ss qs (y0 : {ffun 'I_n'.+1 -> 'cV[R]_d}) ys (backward : bool) c :
  good_resampler rs -> size qs = size ys -> size ss = size ys -> size us = size ys ->
  nearly_keeps_density y0 ys
    (fun b0 bs => path_target G0 Gt qs (y0 b0) (pick ys bs)
      * aux_density (fun s z => gauss_kernel (s.2 / 2%:R)%:M z 0)
          (fun x s => (s.1 / 2%:R) *: g0 x) (fun x x' s q => (s.1 / 2%:R) *: gt x x' q)
          u0 us s0 ss qs y0 ys b0 bs)
    (fun b0 bs => drop_weights (al_sweep (@sizes_ld d) (@sizes_step d) G0 Gt g0 gt rs (@force_move _) key b0 bs y0 ys u0 us s0 ss qs backward))
    c (force_eps n'.+1 c).
Proof. by rewrite half_step half_step_t; move=> *; apply: al_nearly. Qed.
Print Assumptions C54_al_force_move_error.

Theorem C54_al_kernel_is_sweep (X : finZmodType) (n' : nat) (Q setting : Type) (noise ld : setting -> X -> R)
    (scale : setting -> X -> X) (rs : resampler n'.+1) (mv : mover n'.+1) G0 (Gt : X -> X -> Q -> R)
    (g0 : X -> X) (gt : X -> X -> Q -> X)
    (key : key) x0 xs b0 bs s0 ss qs (backward : bool) f :
  E (al_kernel noise ld scale rs mv G0 Gt g0 gt key x0 xs b0 bs s0 ss qs backward) f
  = E (do (u0, us, y0, ys) <- aux_draws noise key x0 xs b0 bs s0 ss (x0 + scale s0 (g0 x0)) (grad_aux scale gt x0 xs ss qs);
       al_sweep ld scale G0 Gt g0 gt rs mv key b0 bs y0 ys u0 us s0 ss qs backward) f.
Proof. exact: al_split. Qed.
Print Assumptions C54_al_kernel_is_sweep.

(** ** C55 *)
(** l_csmc_f.py on R^d: the auxiliary variables are integrated out by any translation
    invariant [I], such as the Lebesgue integral.  With backward sampling the statement
    given all particles needs gradients that do not depend on the previous state (C20 has no
    such condition: there the other particles are summed out). *)
Theorem C55_l_density (d n' : nat) (Q : Type) (rs : resampler n'.+1) (mv : mover n'.+1)
    (G0 : 'cV[R]_d -> R) (Gt : 'cV[R]_d -> 'cV[R]_d -> Q -> R)
    (g0 : 'cV[R]_d -> 'cV[R]_d) (gt : 'cV[R]_d -> 'cV[R]_d -> Q -> 'cV[R]_d) (I : ('cV[R]_d -> R) -> R)
    (key : key) s0 ss qs (y0 : {ffun 'I_n'.+1 -> 'cV[R]_d}) ys (backward : bool) :
  good_resampler rs -> size qs = size ys -> size ss = size ys ->
  translation_invariant I -> (forall s, List.In s (s0 :: ss) -> 0 < s.2) ->
  (backward -> forall x y x' q, gt x x' q = gt y x' q) -> good_mover mv ->
  keeps_density y0 ys
    (fun b0 bs => path_target G0 Gt qs (y0 b0) (pick ys bs)
      * marg_density (fun s z => gauss_kernel (s.2 / 2%:R)%:M z 0)
          (fun x s => (s.1 / 2%:R) *: g0 x) (fun x x' s q => (s.1 / 2%:R) *: gt x x' q) I
          s0 ss qs y0 ys b0 bs)
    (fun b0 bs => drop_weights (l_sweep (@sizes_step d) (@sizes_H d n') G0 Gt g0 gt rs mv key b0 bs y0 ys s0 ss qs backward)).
Proof. by rewrite half_step half_step_t; move=> *; apply: l_keeps. Qed.
Print Assumptions C55_l_density.

Theorem C55_l_force_move_error (d n' : nat) (Q : Type) (rs : resampler n'.+1)
    (G0 : 'cV[R]_d -> R) (Gt : 'cV[R]_d -> 'cV[R]_d -> Q -> R)
    (g0 : 'cV[R]_d -> 'cV[R]_d) (gt : 'cV[R]_d -> 'cV[R]_d -> Q -> 'cV[R]_d) (I : ('cV[R]_d -> R) -> R)
    (key : key) s0 ss qs (y0 : {ffun 'I_n'.+1 -> 'cV[R]_d}) ys (backward : bool) c :
  good_resampler rs -> size qs = size ys -> size ss = size ys ->
  translation_invariant I -> (forall s, List.In s (s0 :: ss) -> 0 < s.2) ->
  (backward -> forall x y x' q, gt x x' q = gt y x' q) ->
  (forall g, (forall u, 0 <= g u) -> 0 <= I g) ->
  nearly_keeps_density y0 ys
    (fun b0 bs => path_target G0 Gt qs (y0 b0) (pick ys bs)
      * marg_density (fun s z => gauss_kernel (s.2 / 2%:R)%:M z 0)
          (fun x s => (s.1 / 2%:R) *: g0 x) (fun x x' s q => (s.1 / 2%:R) *: gt x x' q) I
          s0 ss qs y0 ys b0 bs)
    (fun b0 bs => drop_weights (l_sweep (@sizes_step d) (@sizes_H d n') G0 Gt g0 gt rs (@force_move _) key b0 bs y0 ys s0 ss qs backward))
    c (force_eps n'.+1 c).
Proof. by rewrite half_step half_step_t; move=> *; apply: l_nearly. Qed.
Print Assumptions C55_l_force_move_error.

Theorem C55_l_kernel_is_sweep (X : finZmodType) (n' : nat) (Q setting : Type) (noise : setting -> X -> R)
    (scale : setting -> X -> X) (logH : setting -> {ffun 'I_n'.+1 -> X} -> X -> X -> R)
    (rs : resampler n'.+1) (mv : mover n'.+1) G0 (Gt : X -> X -> Q -> R) (g0 : X -> X) (gt : X -> X -> Q -> X)
    (key : key) x0 xs b0 bs s0 ss qs (backward : bool) f :
  E (l_kernel noise scale logH rs mv G0 Gt g0 gt key x0 xs b0 bs s0 ss qs backward) f
  = E (do (u0, us, y0, ys) <- aux_draws noise key x0 xs b0 bs s0 ss (x0 + scale s0 (g0 x0)) (grad_aux scale gt x0 xs ss qs);
       l_sweep scale logH G0 Gt g0 gt rs mv key b0 bs y0 ys s0 ss qs backward) f.
Proof. exact: l_split. Qed.
Print Assumptions C55_l_kernel_is_sweep.

(** The condition on the integral is met in every dimension ([ex_integral] in PropsGauss). *)
Example ex_integral_l (d : nat) : exists I : ('cV[R]_d -> R) -> R, translation_invariant I.
Proof. by have [I [h1 _ _]] := integral_exists d; exists I. Qed.
