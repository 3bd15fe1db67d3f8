(** * Property theorems C95 and C96: t_atp_csmc_f.py on targets with zeros.  Statements only; the proofs are in
    NanTwistedProofs.v, NanTwistedInv.v and NanLater.v.

    [xtw_kernel] is t_atp_csmc_f.py with log-potentials [r0], [rt] that may be [-inf]: they are the logarithms of
    [R0], [Rt], which may vanish; a run that needs weights that are not finite has no result ([None]).  The prior has
    a positive density, so the target is positive exactly where the product of [R0] and [Rt] is. *)
From Coq Require Import Reals.
From mathcomp Require Import all_ssreflect all_algebra.
From Verif Require Import RInst Prog ProgTheory Resampling Spec Csmc CsmcInvariance AuxCsmc Twisted TwistedKernel.
From Verif Require Import NanCsmc NanSpec NanTwisted NanTwistedProofs NanTwistedInv NanLater.

Set Implicit Arguments.
Unset Strict Implicit.
Unset Printing Implicit Defensive.
Import GRing.Theory Num.Theory Order.TTheory.
Local Open Scope ring_scope.

(** From every reference where the target is positive, when the gradients are defined at all states, the kernel has
    a result where the target is positive, whatever numbers the log-densities [ld] and [lpdf] and the proposals are. *)
Theorem C95_has_result (X : finZmodType) (n' : nat) (Q W : Type)
    (noise0 ld0 : X -> R) (noise ld : Q -> X -> R) (scale0 : X -> X) (scale : Q -> X -> X)
    (tparams : X -> seq X -> W * seq W) (law0 lpdf0 : W -> X -> R) (law lpdf : W -> X -> X -> R)
    (r0 : X -> xnum) (rt : X -> X -> Q -> xnum) (R0 : X -> R) (Rt : X -> X -> Q -> R)
    (g0 : X -> X) (gt : X -> X -> Q -> X)
    (rs : resampler n'.+1) (mv : mover n'.+1) (key : key) qs (backward : bool) x0 xs b0 bs :
  (forall u0 us, size us = size qs -> size (tparams u0 us).2 = size qs) ->
  (forall x, log_of (r0 x) (R0 x)) -> (forall x y q, log_of (rt x y q) (Rt x y q)) ->
  good_resampler rs -> good_mover mv -> proper_mover mv -> size xs = size qs -> size bs = size qs ->
  0 < pot_target R0 Rt qs x0 xs ->
  Pr (odrop (xtw_kernel noise0 ld0 noise ld scale0 scale tparams law0 lpdf0 law lpdf r0 rt
        (fun x => Some (g0 x)) (fun x y q => Some (gt x y q)) rs mv key x0 xs b0 bs qs backward))
     (fun o => if o is Some (y0 :: ys, _) then pot_target R0 Rt qs y0 ys == 0 else true) = 0.
Proof. by move=> ts l0 lt rg mg mp s2 s3 pos; exact: tw_safe. Qed.
Print Assumptions C95_has_result.

(** So do all iterations. *)
Theorem C95_iterations (X : finZmodType) (n' : nat) (Q W : Type)
    (noise0 ld0 : X -> R) (noise ld : Q -> X -> R) (scale0 : X -> X) (scale : Q -> X -> X)
    (tparams : X -> seq X -> W * seq W) (law0 lpdf0 : W -> X -> R) (law lpdf : W -> X -> X -> R)
    (r0 : X -> xnum) (rt : X -> X -> Q -> xnum) (R0 : X -> R) (Rt : X -> X -> Q -> R)
    (g0 : X -> X) (gt : X -> X -> Q -> X)
    (rs : resampler n'.+1) (mv : mover n'.+1) (keys : seq key) qs (backward : bool) x0 xs b0 bs :
  (forall u0 us, size us = size qs -> size (tparams u0 us).2 = size qs) ->
  (forall x, log_of (r0 x) (R0 x)) -> (forall x y q, log_of (rt x y q) (Rt x y q)) ->
  good_resampler rs -> good_mover mv -> proper_mover mv -> size xs = size qs -> size bs = size qs ->
  0 < pot_target R0 Rt qs x0 xs ->
  Pr (xtw_runs noise0 ld0 noise ld scale0 scale tparams law0 lpdf0 law lpdf r0 rt
        (fun x => Some (g0 x)) (fun x y q => Some (gt x y q)) rs mv qs backward keys (x0 :: xs, b0 :: bs))
     (fun o => ~~ isSome o) = 0.
Proof. by move=> ts l0 lt rg mg mp s2 s3 pos; eapply tw_runs_safe; eassumption. Qed.
Print Assumptions C95_iterations.

(** But one state [y] where the gradient of [r0] is undefined, even of density zero, is enough for a positive
    probability of no result, from every reference, as soon as there are two particles. *)
Theorem C95_undefined_gradient (X : finZmodType) (n' : nat) (Q W : Type)
    (noise0 ld0 : X -> R) (noise ld : Q -> X -> R) (scale0 : X -> X) (scale : Q -> X -> X)
    (tparams : X -> seq X -> W * seq W) (law0 lpdf0 : W -> X -> R) (law lpdf : W -> X -> X -> R)
    (r0 : X -> xnum) (rt : X -> X -> Q -> xnum) (g0 : X -> option X) (gt : X -> X -> Q -> option X)
    (rs : resampler n'.+1) (mv : mover n'.+1) (key : key) qs (backward : bool) x0 xs b0 bs y i :
  (forall w, prob_vec (law0 w)) -> (forall w x, prob_vec (law w x)) ->
  (forall z, 0 < noise0 z) -> (forall q z, 0 < noise q z) -> (forall w z, 0 < law0 w z) ->
  good_resampler rs -> proper_mover mv -> i != b0 -> g0 y = None ->
  0 < Pr (xtw_kernel noise0 ld0 noise ld scale0 scale tparams law0 lpdf0 law lpdf r0 rt
        g0 gt rs mv key x0 xs b0 bs qs backward)
         (fun o => ~~ isSome o).
Proof. by move=> p0 pt n0 nt q0 rg mp ib gy; eapply tw_undefined; eassumption. Qed.
Print Assumptions C95_undefined_gradient.

(** The same when the gradient of [rt] at [y] is undefined from all previous states, at any later time. *)
Theorem C95_undefined_gradient_later (X : finZmodType) (n' : nat) (Q W : Type)
    (noise0 ld0 : X -> R) (noise ld : Q -> X -> R) (scale0 : X -> X) (scale : Q -> X -> X)
    (tparams : X -> seq X -> W * seq W) (law0 lpdf0 : W -> X -> R) (law lpdf : W -> X -> X -> R)
    (r0 : X -> xnum) (rt : X -> X -> Q -> xnum) (g0 : X -> option X) (gt : X -> X -> Q -> option X)
    (rs : resampler n'.+1) (mv : mover n'.+1) (key : key) qs (backward : bool) x0 xs b0 bs y q :
  (forall w, prob_vec (law0 w)) -> (forall w x, prob_vec (law w x)) ->
  (forall z, 0 < noise0 z) -> (forall q z, 0 < noise q z) -> (forall w x z, 0 < law w x z) ->
  good_resampler rs -> proper_mover mv -> (0 < n')%N ->
  size xs = size qs -> size bs = size qs -> List.In q qs ->
  (forall u0 us, size us = size qs -> size (tparams u0 us).2 = size qs) -> (forall x, gt x y q = None) ->
  0 < Pr (xtw_kernel noise0 ld0 noise ld scale0 scale tparams law0 lpdf0 law lpdf r0 rt
        g0 gt rs mv key x0 xs b0 bs qs backward)
         (fun o => ~~ isSome o).
Proof. by move=> p0 pt n0 nt q0 rg mp two s2 s3 iq ts gy; eapply tw_later; eassumption. Qed.
Print Assumptions C95_undefined_gradient_later.

(** When all potentials are positive and all gradients defined, this is the model of Twisted.v. *)
Theorem C95_agrees (X : finZmodType) (n' : nat) (Q W : Type)
    (noise0 ld0 : X -> R) (noise ld : Q -> X -> R) (scale0 : X -> X) (scale : Q -> X -> X)
    (tparams : X -> seq X -> W * seq W) (law0 lpdf0 : W -> X -> R) (law lpdf : W -> X -> X -> R)
    (r0 : X -> R) (rt : X -> X -> Q -> R) (g0 : X -> X) (gt : X -> X -> Q -> X)
    (rs : resampler n'.+1) (mv : mover n'.+1) (key : key) x0 xs b0 bs qs (backward : bool) f :
  E (xtw_kernel noise0 ld0 noise ld scale0 scale tparams law0 lpdf0 law lpdf (fun x => Fin (r0 x)) (fun x y q => Fin (rt x y q))
        (fun x => Some (g0 x)) (fun x y q => Some (gt x y q)) rs mv key x0 xs b0 bs qs backward) f
  = E (tw_kernel noise0 ld0 noise ld scale0 scale tparams law0 lpdf0 law lpdf r0 rt g0 gt rs mv key x0 xs b0 bs qs backward)
      (fun r => f (Some (r.1, [seq (fun i => Fin (lw i)) | lw <- r.2]))).
Proof. exact: tw_agrees. Qed.
Print Assumptions C95_agrees.

(** Invariance.  The full statement is for the code's proposals; missing is that these together are the prior times
    the densities of the auxiliary variables (the hypothesis on [tparams]), which is false of the code in general
    (C45_target_refuted) and proved under the conditions of C39. *)
Theorem C96_invariant_partial (X : finZmodType) (n' : nat) (Q W : Type)
    (noise0 ld0 : X -> R) (noise ld : Q -> X -> R) (scale0 : X -> X) (scale : Q -> X -> X)
    (tparams : X -> seq X -> W * seq W) (law0 lpdf0 : W -> X -> R) (law lpdf : W -> X -> X -> R)
    (prior0 : X -> R) (prior : X -> X -> Q -> R)
    (r0 : X -> xnum) (rt : X -> X -> Q -> xnum) (R0 : X -> R) (Rt : X -> X -> Q -> R)
    (g0 : X -> X) (gt : X -> X -> Q -> X)
    (k0 : R) (kn : Q -> R) (c0 ct : W -> R)
    (rs : resampler n'.+1) (mv : mover n'.+1) (key : key) qs (backward : bool) :
  prob_vec noise0 -> (forall q, prob_vec (noise q)) -> (forall w, prob_vec (law0 w)) -> (forall w x, prob_vec (law w x)) ->
  (forall z, exp (ld0 z) = k0 * noise0 z) -> (forall q z, exp (ld q z) = kn q * noise q z) ->
  (forall w z, exp (lpdf0 w z) = c0 w * law0 w z) -> (forall w x z, exp (lpdf w x z) = ct w * law w x z) ->
  (forall x, log_of (r0 x) (R0 x)) -> (forall x y q, log_of (rt x y q) (Rt x y q)) ->
  good_resampler rs -> good_mover mv ->
  (forall u0 us, size us = size qs -> let: (w0, ws) := tparams u0 us in
    size ws = size qs /\ exists k, forall x0 xs, size xs = size qs ->
      lpdf0 w0 x0 + log_path (fun x y w => lpdf w x y) x0 xs ws
      = k + (prior0 x0 + log_path prior x0 xs qs)
        + (ld0 (u0 - x0) + log_path (fun _ y uq => ld uq.2 (uq.1 - y)) x0 xs (zip us qs))) ->
  leaves_invariant_result (size qs) (pot_target (fun x => exp (prior0 x) * R0 x) (fun x y q => exp (prior x y q) * Rt x y q) qs)
    (fun x0 xs b0 bs => odrop (xtw_kernel noise0 ld0 noise ld scale0 scale tparams law0 lpdf0 law lpdf r0 rt
        (fun x => Some (g0 x)) (fun x y q => Some (gt x y q)) rs mv key x0 xs b0 bs qs backward)).
Proof. by move=> n0 nt p0 pt e0 et f0 ft l0 lt rg mg fac; eapply tw_zeros_invariant; eassumption. Qed.
Print Assumptions C96_invariant_partial.

(** The hypotheses are met on every finite group: a random walk seen through flat noise, and potentials that vanish on
    all transitions between distinct states. *)
Example C95_hypotheses_met (X : finZmodType) (Q : Type) (pl : Q -> X -> R) (q0 : Q) (qs : seq Q) :
  let R0 := fun x : X => (x == 0)%:R : R in
  let Rt := fun (x y : X) (_ : Q) => (x == y)%:R : R in
  let r0 := fun x => if x == 0 then Fin 0 else NInf in
  let rt := fun (x y : X) (_ : Q) => if x == y then Fin 0 else NInf in
  let flat := fun _ : X => (#|X|%:R)^-1 : R in
  let law0 := fun w (z : X) => exp (pl w z) / (\sum_z exp (pl w z)) in
  [/\ [/\ prob_vec flat, forall z, 0 < flat z & forall z, exp ((fun=> 0) z) = #|X|%:R * flat z],
      [/\ forall w, prob_vec (law0 w), forall w z, 0 < law0 w z, forall w (x : X), prob_vec (fun z => law0 w (z - x))
         & forall w z, exp (pl w z) = (\sum_z exp (pl w z)) * law0 w z],
      (forall x, log_of (r0 x) (R0 x)) /\ (forall x y q, log_of (rt x y q) (Rt x y q)),
      0 < pot_target R0 Rt qs 0 (nseq (size qs) 0)
    & tw_factor (fun=> 0) (fun _ _ => 0) (fun _ _ => (q0, qs)) pl (fun w x y => pl w (y - x))
        (pl q0) (fun x y q => pl q (y - x)) qs].
Proof. exact: tw_zeros_met. Qed.

(** Those of the theorems ending in [_undefined_gradient_later] as well: a gradient that is defined at the
    state 0 only. *)
Example C95_later_hypotheses_met (X : finZmodType) (y : X) (T : nat) : y != 0 ->
  let gt := fun (_ z : X) (_ : unit) => if z == 0 then Some z else None in
  [/\ List.In tt (nseq T.+1 tt), size (nseq T.+1 y) = size (nseq T.+1 tt), forall x, gt x y tt = None
    & forall x, gt x 0 tt = Some 0].
Proof. by move=> y0 gt; split; rewrite ?size_nseq //= ?eqxx; [left|rewrite /gt (negbTE y0)|rewrite /gt eqxx]. Qed.
