(** * Property theorems C86: csmc.py on targets with zeros.
    Statements only; the proofs are in the Nan* files. *)
From Coq Require Import Reals.
From mathcomp Require Import all_ssreflect all_algebra.
From Verif Require Import RInst Prog ProgTheory Resampling Spec Csmc CsmcInvariance CsmcFinal.
From Verif Require Import NanCsmc NanSpec NanNumbers NanProofs NanFinal NanAgree NanExamples NanProps.

Set Implicit Arguments.
Unset Strict Implicit.
Unset Printing Implicit Defensive.
Import GRing.Theory Num.Theory Order.TTheory.
Local Open Scope ring_scope.

(** [xkernel] is csmc.py with numbers that may be [-inf], [+inf] or NaN; a run that
    needs weights that are not finite has no result ([None]).  [markov_zeros]: the
    callbacks sample from [mu0], [mut] and return the logarithms of these densities
    and of the potentials [G0], [Gt], all of which may vanish; the proposals reach
    every state where the potential does not vanish. *)

(** Started from the target, both backward passes have a result almost surely, and it
    is distributed as the target. *)
Theorem C86_invariant (X : finType) (n' : nat) (P Q : Type) (md : xmodel X n' P Q)
    mu0 mut G0 Gt rs mv (key : key) ps qs (backward : bool) :
  markov_zeros md mu0 mut G0 Gt -> good_resampler rs -> good_mover mv -> size ps = size qs ->
  leaves_invariant_result (size qs) (pot_target G0 Gt qs)
    (fun x0 xs b0 bs => odrop (xkernel rs mv md key x0 xs b0 bs ps qs backward true)).
Proof. by move=> mk gr gm s; exact: (nan_invariant mk gr). Qed.
Print Assumptions C86_invariant.

(** From every reference where the target is positive, the run has a result where the
    target is positive: no reachable weight is undefined. *)
Theorem C86_has_result (X : finType) (n' : nat) (P Q : Type) (md : xmodel X n' P Q)
    mu0 mut G0 Gt rs mv (key : key) ps qs (backward : bool) x0 xs b0 bs :
  markov_zeros md mu0 mut G0 Gt -> good_resampler rs -> good_mover mv -> proper_mover mv ->
  size ps = size qs -> size xs = size qs -> size bs = size qs -> 0 < pot_target G0 Gt qs x0 xs ->
  Pr (odrop (xkernel rs mv md key x0 xs b0 bs ps qs backward true))
     (fun o => if o is Some (y0 :: ys, _) then pot_target G0 Gt qs y0 ys == 0 else true) = 0.
Proof. exact: has_result. Qed.
Print Assumptions C86_has_result.

(** Nor is one in any number of iterations. *)
Theorem C86_iterations (X : finType) (n' : nat) (P Q : Type) (md : xmodel X n' P Q)
    mu0 mut G0 Gt rs mv (keys : seq key) ps qs (backward : bool) x0 xs b0 bs :
  markov_zeros md mu0 mut G0 Gt -> good_resampler rs -> good_mover mv -> proper_mover mv ->
  size ps = size qs -> size xs = size qs -> size bs = size qs -> 0 < pot_target G0 Gt qs x0 xs ->
  Pr (xruns rs mv md ps qs backward keys (x0 :: xs, b0 :: bs)) (fun o => ~~ isSome o) = 0.
Proof. exact: iterations. Qed.
Print Assumptions C86_iterations.

(** The schemes of utils/resamplings.py and the Barker move meet the contracts. *)
Theorem C86_code_contracts (n' : nat) :
  [/\ good_resampler (@multinomial n'.+1), good_resampler (@killing n'), good_mover (@barker_move n'.+1)
    & proper_mover (@barker_move n'.+1)].
Proof. exact: nan_contracts. Qed.
Print Assumptions C86_code_contracts.

(** When all log-densities are finite, this is the model of Csmc.v. *)
Theorem C86_agrees (X : Type) (n' : nat) (P Q : Type) rs mv (md : model X n' P Q) (key : key)
    x0 xs b0 bs ps qs (backward conditional : bool) f :
  E (xkernel rs mv (finite_model md) key x0 xs b0 bs ps qs backward conditional) f
  = E (kernel rs mv md key x0 xs b0 bs ps qs backward conditional)
      (fun r => f (Some (r.1, [seq (fun i => Fin (lw i)) | lw <- r.2]))).
Proof. exact: agrees. Qed.
Print Assumptions C86_agrees.

(** The reference is needed: with [conditional=False] the weights may be undefined. *)
Theorem C86_unconditional_refuted : exists G0 : 'I_2 -> R,
  let Gt := fun _ _ (_ : unit) => 1 in let md := zmodel 0 G0 Gt in
  [/\ markov_zeros md (fun _ => u_ 1) (fun _ _ _ => u_ 1) G0 Gt, 0 < pot_target G0 Gt [::] ord0 [::]
    & forall key, 0 < Pr (odrop (xkernel (@multinomial 1) (@barker_move 1) md key ord0 [::] ord0 [::] [::] [::] false false))
                         (fun o => ~~ isSome o)].
Proof. exact: unconditional_fails. Qed.
Print Assumptions C86_unconditional_refuted.

(** The forced move may select a particle of weight 0: [utils/common.py:38] proposes
    uniformly, including such particles, once the reference has weight [>= 1 - 1e-12]. *)
Theorem C86_force_move_refuted : exists G0 : 'I_3 -> R,
  let Gt := fun _ _ (_ : unit) => 1 in let md := zmodel 2 G0 Gt in
  [/\ markov_zeros md (fun _ => u_ 2) (fun _ _ _ => u_ 2) G0 Gt, 0 < pot_target G0 Gt [::] ord0 [::]
    & forall key, 0 < Pr (odrop (xkernel (@multinomial 3) (@force_move 3) md key ord0 [::] ord0 [::] [::] [::] false true))
                         (fun o => if o is Some (x0 :: xs, _) then pot_target G0 Gt [::] x0 xs == 0 else false)].
Proof. exact: force_fails. Qed.
Print Assumptions C86_force_move_refuted.

(** The hypotheses are met: uniform proposals on [m.+1] states with any potentials
    [>= 0], for instance one that vanishes on all transitions between distinct states. *)
Example C86_hypotheses_met (m n' : nat) :
  let G0 := fun x : 'I_m.+1 => (x == ord0)%:R : R in
  let Gt := fun (x y : 'I_m.+1) (_ : unit) => (x == y)%:R : R in
  [/\ markov_zeros (zmodel n' G0 Gt) (fun _ => u_ m) (fun _ _ _ => u_ m) G0 Gt
    & forall T, 0 < pot_target G0 Gt (nseq T tt) ord0 (nseq T ord0)].
Proof. exact: zeros_met. Qed.
