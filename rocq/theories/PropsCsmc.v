(** * Property theorems C10-C16: the conditional SMC kernel of csmc.py.
    Statements only; the proofs are in the *Proofs files. *)
From Coq Require Import Reals.
From mathcomp Require Import all_ssreflect all_algebra.
From Verif Require Import RInst Prog ProgTheory Resampling Spec Csmc CsmcInvariance CsmcProofs KeyProofs CsmcSpecs CsmcFinal.

Set Implicit Arguments.
Unset Strict Implicit.
Unset Printing Implicit Defensive.
Import GRing.Theory Num.Theory Order.TTheory.
Local Open Scope ring_scope.

(** ** C10, C11 *)
(** [markov_model md mu0 mut]: the callbacks of [md] sample independently from
    [mu0] and [mut (ancestor) p], and evaluate these densities.
    [good_resampler]: the resampling scheme has an unconditional counterpart of
    which it is the conditioning (C02, C03).  [good_mover]: the final move leaves
    the weights invariant (C06). *)
Theorem C10_csmc_tracing (X : finType) (n' : nat) (P Q : Type) (md : model X n' P Q)
    (mu0 : X -> R) (mut : X -> P -> X -> R) rs mv (key : key) ps qs :
  markov_model md mu0 mut -> good_resampler rs -> good_mover mv -> size ps = size qs ->
  leaves_invariant (size qs) (path_target (Gamma0 md) (Gammat md) qs)
    (fun x0 xs b0 bs => drop_weights (kernel rs mv md key x0 xs b0 bs ps qs false true)).
Proof. exact: csmc_markov. Qed.
Print Assumptions C10_csmc_tracing.

Theorem C11_csmc_backward (X : finType) (n' : nat) (P Q : Type) (md : model X n' P Q)
    (mu0 : X -> R) (mut : X -> P -> X -> R) rs mv (key : key) ps qs :
  markov_model md mu0 mut -> good_resampler rs -> good_mover mv -> size ps = size qs ->
  leaves_invariant (size qs) (path_target (Gamma0 md) (Gammat md) qs)
    (fun x0 xs b0 bs => drop_weights (kernel rs mv md key x0 xs b0 bs ps qs true true)).
Proof. exact: csmc_markov. Qed.
Print Assumptions C11_csmc_backward.

(** The schemes of utils/resamplings.py and the Barker move meet the contracts. *)
Theorem C10_code_contracts (n' : nat) :
  [/\ good_resampler (@multinomial n'.+1), good_resampler (@killing n') & good_mover (@barker_move n'.+1)].
Proof. exact: contracts. Qed.
Print Assumptions C10_code_contracts.

(** With proposals that are not independent (as in tp_csmc.py), it is enough that
    the target of a step times the law of the other particles is the weight
    of the reference times a term that treats all particles alike. *)
Theorem C10_C11_general (X : finType) (n' : nat) (P Q : Type) (md : model X n' P Q)
    rs mv (key : key) ps qs (backward : bool) :
  (forall key,
     proper (M0_rvs md key) /\
     exists S : {ffun 'I_n'.+1 -> X} -> R, forall b F,
       \sum_x exp (Gamma0 md x) * E (M0_rvs md key) (fun x0 => F (upd x0 b x))
       = \sum_x0 S x0 * exp (Gamma0 md (x0 b) - M0_logpdf md x0 b) * F x0) ->
  (forall key p q (xm : {ffun 'I_n'.+1 -> X}),
     proper (Mt_rvs md key xm p) /\
     exists S : {ffun 'I_n'.+1 -> X} -> R, forall b F,
       \sum_x exp (Gammat md (xm b) x q) * E (Mt_rvs md key xm p) (fun xt => F (upd xt b x))
       = \sum_xt S xt * exp (Gammat md (xm b) (xt b) q - Mt_logpdf md xm xt p b) * F xt) ->
  good_resampler rs -> good_mover mv -> size ps = size qs ->
  leaves_invariant (size qs) (path_target (Gamma0 md) (Gammat md) qs)
    (fun x0 xs b0 bs => drop_weights (kernel rs mv md key x0 xs b0 bs ps qs backward true)).
Proof. exact: csmc_general. Qed.
Print Assumptions C10_C11_general.

(** With the forced move, the full claim is false of the code. *)
Theorem C10_force_move_refuted : exists (G0 : bool -> R) (Gt : bool -> bool -> unit -> R), forall key,
  markov_model (ex_model 1 G0 Gt) (fun _ => half) (fun _ _ _ => half) /\
  ~ leaves_invariant 0 (path_target G0 Gt [::])
      (fun x0 xs b0 bs => drop_weights
         (kernel (@multinomial 2) (@force_move 2) (ex_model 1 G0 Gt) key x0 xs b0 bs [::] [::] false true)).
Proof. exact: force_refuted. Qed.
Print Assumptions C10_force_move_refuted.

(** It holds up to [4 c min(exp(-M), 1e-12)] times the total mass, for test
    functions bounded by [c]. *)
Theorem C10_C11_force_move_error (X : finType) (n' : nat) (P Q : Type) (md : model X n' P Q)
    (mu0 : X -> R) (mut : X -> P -> X -> R) rs (key : key) ps qs (backward : bool)
    (f : seq X -> seq 'I_n'.+1 -> R) (c : R) :
  markov_model md mu0 mut -> good_resampler rs -> size ps = size qs -> (forall xs bs, `|f xs bs| <= c) ->
  `| traj_sum (size qs) (fun x0 xs b0 bs => path_target (Gamma0 md) (Gammat md) qs x0 xs *
       E (drop_weights (kernel rs (@force_move _) md key x0 xs b0 bs ps qs backward true)) (fun r => f r.1 r.2))
     - traj_sum (size qs) (fun x0 xs b0 bs => path_target (Gamma0 md) (Gammat md) qs x0 xs * f (x0 :: xs) (b0 :: bs)) |
  <= traj_sum (size qs) (fun x0 xs (b0 : 'I_n'.+1) bs => path_target (Gamma0 md) (Gammat md) qs x0 xs *
       (4%:R * c * Num.min (exp (- n'.+1%:R)) (1 / IZR 1000000000000))).
Proof. exact: csmc_force. Qed.
Print Assumptions C10_C11_force_move_error.

(** Non-vacuity: two states, uniform proposals, arbitrary potentials. *)
Example ex_markov_model n' G0 Gt : markov_model (ex_model n' G0 Gt) (fun _ => half) (fun _ _ _ => half).
Proof. exact: ex_markov. Qed.

(** ** C12 *)
Theorem C12_reference_carried (X : Type) (n' : nat) (P Q : Type) (md : model X n' P Q)
    (rs : resampler n'.+1) (key : key) x0 xs b0 bs ps qs :
  (forall key w i j, always (fun A : {ffun 'I_n'.+1 -> 'I_n'.+1} => A j = i) (rs key w i j true)) ->
  size ps = size qs -> size bs = size qs -> size xs = size qs ->
  always (fun o : fwd_out X n' => [/\ o.1.2 b0 = x0, size o.2 = size xs
    & forall t, (t < size xs)%N -> forall dflt,
        (nth dflt o.2 t).2 (nth b0 bs t) = nth x0 xs t
        /\ (nth dflt o.2 t).1.2 (nth b0 bs t) = nth b0 (b0 :: bs) t])
    (forward_pass rs md key x0 xs b0 bs ps qs true).
Proof. exact: fwd_keeps. Qed.
Print Assumptions C12_reference_carried.

(** ** C13 *)
(** For every property [PO] of all outputs of the forward pass, the result of the
    kernel comes from an output [o] with [PO o]. [gens o] lists the generations. *)
Theorem C13_trajectory_of_particles (X : Type) (n' : nat) (P Q : Type) (md : model X n' P Q)
    (rs : resampler n'.+1) (mv : mover n'.+1) (key : key) x0 xs b0 bs ps qs (backward conditional : bool)
    (PO : fwd_out X n' -> Prop) :
  size ps = size qs -> size bs = size qs -> size xs = size qs ->
  always PO (forward_pass rs md key x0 xs b0 bs ps qs conditional) ->
  always (fun r => exists o, [/\ PO o,
       size r.1.1 = (size xs).+1 /\ size r.1.2 = (size xs).+1,
       forall t, (t <= size xs)%N -> forall dx db dg,
         nth dx r.1.1 t = (nth dg (gens o) t).2 (nth db r.1.2 t)
     & ~~ backward -> forall t, (t < size xs)%N -> forall db dg,
         nth db r.1.2 t = (nth dg o.2 t).1.2 (nth db r.1.2 t.+1)])
    (kernel rs mv md key x0 xs b0 bs ps qs backward conditional).
Proof. exact: kernel_traced. Qed.
Print Assumptions C13_trajectory_of_particles.

(** ** C14 *)
Theorem C14_unchanged_index (X : Type) (n' : nat) (P Q : Type) (md : model X n' P Q)
    (rs : resampler n'.+1) (mv : mover n'.+1) (key : key) x0 xs b0 bs ps qs (backward : bool) :
  (forall key w i j, always (fun A : {ffun 'I_n'.+1 -> 'I_n'.+1} => A j = i) (rs key w i j true)) ->
  size ps = size qs -> size bs = size qs -> size xs = size qs ->
  always (fun r => forall t, (t <= size xs)%N ->
       nth b0 r.1.2 t = nth b0 (b0 :: bs) t -> nth x0 r.1.1 t = nth x0 (x0 :: xs) t)
    (kernel rs mv md key x0 xs b0 bs ps qs backward true).
Proof. exact: kernel_unchanged. Qed.
Print Assumptions C14_unchanged_index.

(** ** C15 *)
(** Full claim: for both backward modes and every final move.  It is false for
    [backward=False] with the forced move. *)
Theorem C15_unconditional_refuted : exists (b b' : 'I_2) f, forall key,
  E (kernel (@multinomial 2) (@force_move 2) unit_model key tt [::] b [::] [::] [::] false false) f
  <> E (kernel (@multinomial 2) (@force_move 2) unit_model key tt [::] b' [::] [::] [::] false false) f.
Proof. exact: unconditional_refuted. Qed.
Print Assumptions C15_unconditional_refuted.

(** It holds with [backward=True], and with [backward=False] for the Barker move. *)
Theorem C15_unconditional_ignores_reference (X : Type) (n' : nat) (P Q : Type) (md : model X n' P Q)
    (rs : resampler n'.+1) (mv : mover n'.+1) (key : key) x0 xs b0 bs x0' xs' b0' bs' ps qs (backward : bool) f :
  rs = @multinomial _ \/ rs = @killing _ -> backward \/ mv = @barker_move _ ->
  size xs' = size xs -> size bs' = size bs ->
  E (kernel rs mv md key x0 xs b0 bs ps qs backward false) f
  = E (kernel rs mv md key x0' xs' b0' bs' ps qs backward false) f.
Proof. exact: kernel_ignores. Qed.
Print Assumptions C15_unconditional_ignores_reference.

(** ** C16 *)
(** [uses [:: key] m]: in every execution of [m] the consumed keys descend from
    [key], are pairwise distinct and none is an ancestor of another. *)
Theorem C16_keys_csmc (X : Type) (n' : nat) (P Q : Type) (md : model X n' P Q)
    (rs : resampler n'.+1) (mv : mover n'.+1) (key : key) x0 xs b0 bs ps qs (backward conditional : bool) :
  (forall key w i j b, uses [:: key] (rs key w i j b)) ->
  (forall key w k, uses [:: key] (mv key w k)) ->
  (forall key, uses [:: key] (M0_rvs md key)) ->
  (forall key x p, uses [:: key] (Mt_rvs md key x p)) ->
  uses [:: key] (kernel rs mv md key x0 xs b0 bs ps qs backward conditional).
Proof. exact: uses_kernel_spec. Qed.
Print Assumptions C16_keys_csmc.

Theorem C16_keys_callbacks (n' : nat) (key : key) (w : 'I_n'.+1 -> R) (i j k : 'I_n'.+1) (b : bool) :
  [/\ uses [:: key] (multinomial key w i j b), uses [:: key] (killing key w i j b),
      uses [:: key] (force_move key w k) & uses [:: key] (barker_move key w k)].
Proof. exact: uses_callbacks. Qed.
Print Assumptions C16_keys_callbacks.

(** Non-vacuity: the example model respects the discipline. *)
Example ex_keys n' G0 Gt key : uses [:: key] (M0_rvs (ex_model n' G0 Gt) key).
Proof. exact: uses_draw. Qed.
