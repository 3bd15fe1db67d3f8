(** * Property theorems C78: the standard deviations that the whole stochastic volatility experiment records.
    Statements only; the proofs are in RunDeviation.v.

    [np_std] (Runs.v) is [jnp.std(samples, 0)] of experiment.py:204 for one chain and one coordinate;
    [deviation m f] (RunSpec.v) is the square root of the variance of [f] for the mean [m].  [sound_run] is what C73
    proves of the experiment with each kernel. *)
From Coq Require Import Reals.
From mathcomp Require Import all_ssreflect all_algebra.
From Verif Require Import RInst Prog Resampling Spec Csmc CsmcSpecs Drivers ErgodicSpec ErgodicFinal ErgodicSingleSpec.
From Verif Require Import Runs RunSpec RunFinal RunDeviation.

Set Implicit Arguments.
Unset Strict Implicit.
Unset Printing Implicit Defensive.
Import GRing.Theory Num.Theory Order.TTheory.
Local Open Scope ring_scope.

(** ** C78 *)
Theorem C78_deviations (D Z : Type) (mean : D -> (Z -> R) -> R) (bias : R -> R)
    (run : nat -> nat -> key -> nat -> nat -> prog (unit * seq (seq (D * seq Z)))) :
  sound_run mean bias run -> (forall d, is_mean (mean d)) -> deviations_converge mean bias (@np_std Z) run.
Proof. exact: run_deviations. Qed.
Print Assumptions C78_deviations.

Theorem C78_consistent (D Z : Type) (mean : D -> (Z -> R) -> R) (bias : R -> R)
    (run : nat -> nat -> key -> nat -> nat -> prog (unit * seq (seq (D * seq Z)))) :
  sound_run mean bias run -> (forall d, is_mean (mean d)) -> (forall c, bias c = 0) ->
  deviations_consistent mean (@np_std Z) run.
Proof. exact: run_deviations_consistent. Qed.
Print Assumptions C78_consistent.

(** The means under the targets of C73 meet the hypothesis. *)
Theorem C78_means (X : finType) (Q : Type) (G0 : X -> R) (Gt : X -> X -> Q -> R) (qs : seq Q) (m : nat) (t : X -> R) :
  (0 < #|X|)%N -> (forall x, 0 <= t x) -> 0 < \sum_x t x ->
  is_mean (fun f => path_mean m (path_target G0 Gt qs) f) /\ is_mean (fun f => mean_under t f).
Proof. by move=> h1 h2 h3; split; [exact: path_target_mean|exact: under_mean]. Qed.
Print Assumptions C78_means.

(** Non-vacuity: the complete run of [ex_run] (PropsRuns.v), with random data, killing resampling and Barker's move. *)
Example ex_run_deviations n' (m : nat) (G0 : bool -> bool -> R) (Gt : bool -> bool -> bool -> unit -> R)
    (stat : ('I_m.+1 -> option R) -> 'I_m.+1 -> option R) cfg delta_init adaptation backward : (0 < n')%N ->
  deviations_converge (fun d f => path_mean m (path_target (G0 d) (Gt d) (nseq m tt)) f) (fun=> 0) (@np_std (seq bool))
    (viewed (@samples_of _ _ _ _) (sv_particle_run (fun key => draw key (fun _ : bool => half))
       (fun key d => do r <- kernel (@killing n') (@barker_move n'.+1) (ex_model n' (G0 d) (Gt d)) key
                       true (nseq m true) ord0 (nseq m ord0) (nseq m tt) (nseq m tt) true false; Ret r.1.1)
       (fun d _ key x0 xs b0 bs => drop_weights
          (kernel (@killing n') (@barker_move n'.+1) (ex_model n' (G0 d) (Gt d)) key x0 xs b0 bs
             (nseq m tt) (nseq m tt) backward true))
       stat cfg delta_init adaptation)).
Proof.
move=> n0; apply: C78_deviations; first exact: ex_run_sound.
by move=> d; apply: path_target_mean; rewrite card_bool.
Qed.
