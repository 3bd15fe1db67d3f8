(** * Property theorems C87: rw_csmc.py on targets with zeros.
    Statements only; the proofs are in the NanRw* files.

    [xrw_kernel] is rw_csmc.py with log-potentials that may be [-inf]; a run that needs
    weights that are not finite has no result ([None]).  [L0], [Lt] return the logarithms of
    the potentials [G0], [Gt], which may vanish.  [noise s] is the law of the Gaussian
    noise at setting [s]: even and positive.  [xpredT]: every state is finite. *)
From Coq Require Import Reals.
From mathcomp Require Import all_ssreflect all_algebra.
From Verif Require Import RInst Prog ProgTheory Resampling Spec Csmc CsmcInvariance AuxCsmc AuxFinal.
From Verif Require Import NanCsmc NanSpec NanRw NanRwProofs NanRwFinal.

Set Implicit Arguments.
Unset Strict Implicit.
Unset Printing Implicit Defensive.
Import GRing.Theory Num.Theory Order.TTheory.
Local Open Scope ring_scope.

(** Started from the target, both backward passes have a result almost surely, and it
    is distributed as the target. *)
Theorem C87_invariant (X : finZmodType) (n' : nat) (Q setting : Type) (noise : setting -> X -> R)
    (rs : resampler n'.+1) (mv : mover n'.+1) L0 (Lt : X -> X -> Q -> xnum) G0 Gt
    (key : key) s0 ss qs (backward : bool) :
  (forall s, prob_vec (noise s)) -> (forall s z, noise s (- z) = noise s z) -> (forall s z, 0 < noise s z) ->
  (forall x, log_of (L0 x) (G0 x)) -> (forall x y q, log_of (Lt x y q) (Gt x y q)) ->
  good_resampler rs -> good_mover mv -> size ss = size qs ->
  leaves_invariant_result (size qs) (pot_target G0 Gt qs)
    (fun x0 xs b0 bs => odrop (xrw_kernel noise rs mv L0 Lt xpredT key x0 xs b0 bs s0 ss qs backward)).
Proof. by move=> nP ne np l0 lt rg mg s1; exact: (rw_invariant nP ne np l0 lt rg). Qed.
Print Assumptions C87_invariant.

(** From every reference where the target is positive, the run has a result where the
    target is positive. *)
Theorem C87_has_result (X : finZmodType) (n' : nat) (Q setting : Type) (noise : setting -> X -> R)
    (rs : resampler n'.+1) (mv : mover n'.+1) L0 (Lt : X -> X -> Q -> xnum) G0 Gt
    (key : key) s0 ss qs (backward : bool) x0 xs b0 bs :
  (forall s, prob_vec (noise s)) -> (forall s z, noise s (- z) = noise s z) -> (forall s z, 0 < noise s z) ->
  (forall x, log_of (L0 x) (G0 x)) -> (forall x y q, log_of (Lt x y q) (Gt x y q)) ->
  good_resampler rs -> good_mover mv -> proper_mover mv ->
  size ss = size qs -> size xs = size qs -> size bs = size qs -> 0 < pot_target G0 Gt qs x0 xs ->
  Pr (odrop (xrw_kernel noise rs mv L0 Lt xpredT key x0 xs b0 bs s0 ss qs backward))
     (fun o => if o is Some (y0 :: ys, _) then pot_target G0 Gt qs y0 ys == 0 else true) = 0.
Proof. by move=> nP ne np l0 lt rg mg mp s1 s2 s3; exact: (rw_has_result nP ne np l0 lt rg). Qed.
Print Assumptions C87_has_result.

(** So do all iterations of the kernel. *)
Theorem C87_iterations (X : finZmodType) (n' : nat) (Q setting : Type) (noise : setting -> X -> R)
    (rs : resampler n'.+1) (mv : mover n'.+1) L0 (Lt : X -> X -> Q -> xnum) G0 Gt
    (keys : seq key) s0 ss qs (backward : bool) x0 xs b0 bs :
  (forall s, prob_vec (noise s)) -> (forall s z, noise s (- z) = noise s z) -> (forall s z, 0 < noise s z) ->
  (forall x, log_of (L0 x) (G0 x)) -> (forall x y q, log_of (Lt x y q) (Gt x y q)) ->
  good_resampler rs -> good_mover mv -> proper_mover mv ->
  size ss = size qs -> size xs = size qs -> size bs = size qs -> 0 < pot_target G0 Gt qs x0 xs ->
  Pr (xrw_runs noise rs mv L0 Lt s0 ss qs backward keys (x0 :: xs, b0 :: bs)) (fun o => ~~ isSome o) = 0.
Proof. by move=> nP ne np l0 lt rg mg mp s1 s2 s3; exact: (rw_runs_result nP ne np l0 lt rg). Qed.
Print Assumptions C87_iterations.

(** When all potentials are positive, this is the model of AuxCsmc.v. *)
Theorem C87_agrees (X : finZmodType) (n' : nat) (Q setting : Type) (noise : setting -> X -> R)
    (rs : resampler n'.+1) (mv : mover n'.+1) G0 (Gt : X -> X -> Q -> R) finite
    (key : key) x0 xs b0 bs s0 ss qs (backward : bool) f :
  E (xrw_kernel noise rs mv (fun x => Fin (G0 x)) (fun x y q => Fin (Gt x y q)) finite key x0 xs b0 bs s0 ss qs backward) f
  = E (rw_kernel noise rs mv G0 Gt finite key x0 xs b0 bs s0 ss qs backward)
      (fun r => f (Some (r.1, [seq (fun i => Fin (lw i)) | lw <- r.2]))).
Proof. exact: rw_agrees. Qed.
Print Assumptions C87_agrees.

(** The hypotheses are met, on every finite group: noise [exp (ld s z)] normalised, and
    potentials that vanish on all transitions between distinct states. *)
Example C87_hypotheses_met (X : finZmodType) (setting : Type) (ld : setting -> X -> R) :
  (forall s z, ld s (- z) = ld s z) ->
  let G0 := fun x : X => (x == 0)%:R : R in
  let Gt := fun (x y : X) (_ : unit) => (x == y)%:R : R in
  let L0 := fun x => if x == 0 then Fin 0 else NInf in
  let Lt := fun (x y : X) (_ : unit) => if x == y then Fin 0 else NInf in
  [/\ forall s, prob_vec (ex_noise ld s), forall s z, ex_noise ld s (- z) = ex_noise ld s z,
      forall s z, 0 < ex_noise ld s z,
      (forall x, log_of (L0 x) (G0 x)) /\ (forall x y q, log_of (Lt x y q) (Gt x y q))
    & forall T, 0 < pot_target G0 Gt (nseq T tt) 0 (nseq T 0)].
Proof. exact: rw_zeros_met. Qed.
