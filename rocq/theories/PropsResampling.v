(** * Property theorems C01-C09: normalisation, resampling, final moves.
    Statements only; the proofs are in the *Proofs files. *)
From Coq Require Import Reals.
From mathcomp Require Import all_ssreflect all_algebra.
From Verif Require Import RInst Prog ProgTheory Resampling Spec ResamplingProofs KillingProofs MoveProofs MoveWitness ResamplingSpecs.

Set Implicit Arguments.
Unset Strict Implicit.
Unset Printing Implicit Defensive.
Import GRing.Theory Num.Theory Order.TTheory.
Local Open Scope ring_scope.

(** ** C01 *)
Theorem C01_normalize (n' : nat) (lw : 'I_n'.+1 -> R) :
  [/\ forall i, 0 < normalize lw i,
      \sum_i normalize lw i = 1,
      forall i j, normalize lw i / normalize lw j = exp (lw i) / exp (lw j),
      forall c i, normalize (fun i => lw i + c) i = normalize lw i
    & forall i, normalize_log lw i = ln (normalize lw i)].
Proof. exact: normalize_spec. Qed.
Print Assumptions C01_normalize.

(** ** C02 *)
Theorem C02_multinomial (n : nat) (key : key) (w : 'I_n -> R) :
  prob_vec w ->
  (forall i j f, E (multinomial key w i j false) f
     = \sum_(A : {ffun 'I_n -> 'I_n}) (\prod_l w (A l)) * f A)
  /\ conditional_of w (fun A => \prod_l w (A l)) (fun i j => multinomial key w i j true).
Proof. exact: multinomial_spec. Qed.
Print Assumptions C02_multinomial.

(** ** C03 *)
(** [rotate s A] is the array [A] rotated by [s] positions; the law [rho] is the
    law of a uniformly rotated unconditional killing. *)
Theorem C03_killing_conditional (n' : nat) (key : key) (w : 'I_n'.+1 -> R) :
  prob_vec w ->
  exists rho : {ffun 'I_n'.+1 -> 'I_n'.+1} -> R,
  [/\ prob_vec rho,
      forall i j f, \sum_A rho A * f A
        = n'.+1%:R^-1 * \sum_(s : 'I_n'.+1)
            E (killing key w i j false) (fun A => f [ffun l => A (l - s)])
    & conditional_of w rho (fun i j => killing key w i j true)].
Proof. exact: killing_spec. Qed.
Print Assumptions C03_killing_conditional.

(** ** C04 *)
Theorem C04_killing_unbiased (n' : nat) (key : key) (w : 'I_n'.+1 -> R) :
  prob_vec w ->
  (forall i j a, E (killing key w i j false)
      (fun A : {ffun 'I_n'.+1 -> 'I_n'.+1} => (#|[set l | A l == a]|)%:R) = n'.+1%:R * w a)
  /\ ((forall l l', w l = w l') -> forall i j,
      almost (fun A : {ffun 'I_n'.+1 -> 'I_n'.+1} => forall l, A l = l) (killing key w i j false)).
Proof. exact: killing_unbiased_spec. Qed.
Print Assumptions C04_killing_unbiased.

(** ** C05 *)
Theorem C05_reference_lineage_kept (n' : nat) (key : key) (w : 'I_n'.+1 -> R) (i j : 'I_n'.+1) :
  always (fun A : {ffun 'I_n'.+1 -> 'I_n'.+1} => A j = i) (multinomial key w i j true)
  /\ always (fun A : {ffun 'I_n'.+1 -> 'I_n'.+1} => A j = i) (killing key w i j true).
Proof. exact: keep_spec. Qed.
Print Assumptions C05_reference_lineage_kept.

(** ** C06 *)
Theorem C06_barker_move (n : nat) (key : key) (w : 'I_n -> R) :
  prob_vec w ->
  [/\ forall k i, Pr (barker_move key w k) (fun r => r.1 == i) = w i,
      forall f, \sum_k w k * E (barker_move key w k) (fun r => f r.1) = \sum_k w k * f k
    & forall k, always (fun r => r.2 = Pr (barker_move key w k) (fun r' => r'.1 != k))
                       (barker_move key w k)].
Proof. exact: barker_spec. Qed.
Print Assumptions C06_barker_move.

(** ** C07 *)
(** Full claim: reversibility for every probability vector.  It is false of the
    code when one weight lies in the guarded interval [[threshold, 1)]. *)
Theorem C07_force_move_refuted :
  exists (n : nat) (w : 'I_n -> R), prob_vec w /\
  forall key, exists f : 'I_n -> R,
    \sum_k w k * E (force_move key w k) (fun r => f r.1) <> \sum_k w k * f k.
Proof. exact: force_not_invariant. Qed.
Print Assumptions C07_force_move_refuted.

(** It holds for every probability vector without a weight in that interval. *)
Theorem C07_force_move_reversible (n' : nat) (key : key) (w : 'I_n'.+1 -> R) :
  prob_vec w ->
  (forall k, w k < 1 - exp (- n'.+1%:R) \/ w k < 1 - 1 / IZR 1000000000000 \/ w k = 1) ->
  (forall k l, w k * Pr (force_move key w k) (fun r => r.1 == l)
             = w l * Pr (force_move key w l) (fun r => r.1 == k))
  /\ (forall f, \sum_k w k * E (force_move key w k) (fun r => f r.1) = \sum_k w k * f k).
Proof. exact: force_reversible_spec. Qed.
Print Assumptions C07_force_move_reversible.

(** For every probability vector, the error is at most [4 c min(exp(-M), 1e-12)]. *)
Theorem C07_force_move_error_bound (n' : nat) (key : key) (w : 'I_n'.+1 -> R)
    (f : 'I_n'.+1 -> R) (c : R) :
  prob_vec w -> (forall k, `|f k| <= c) ->
  `|\sum_k w k * E (force_move key w k) (fun r => f r.1) - \sum_k w k * f k|
    <= 4%:R * c * Num.min (exp (- n'.+1%:R)) (1 / IZR 1000000000000).
Proof. exact: force_bound_spec. Qed.
Print Assumptions C07_force_move_error_bound.

(** ** C08 *)
(** Full claim: for every probability vector.  False in the guarded interval. *)
Theorem C08_peskun_refuted :
  exists (n : nat) (w : 'I_n -> R) (k l : 'I_n), [/\ prob_vec w, k != l &
    forall key, Pr (force_move key w k) (fun r => r.1 == l)
              < Pr (barker_move key w k) (fun r => r.1 == l)].
Proof. exact: force_not_peskun. Qed.
Print Assumptions C08_peskun_refuted.

Theorem C08_force_move_dominates_barker (n' : nat) (key : key) (w : 'I_n'.+1 -> R) (k : 'I_n'.+1) :
  prob_vec w ->
  (w k < 1 - exp (- n'.+1%:R) \/ w k < 1 - 1 / IZR 1000000000000 \/ w k = 1) ->
  (forall l, k != l -> Pr (barker_move key w k) (fun r => r.1 == l)
                    <= Pr (force_move key w k) (fun r => r.1 == l))
  /\ Pr (force_move key w k) (fun r => r.1 == k) <= w k.
Proof. exact: force_peskun_spec. Qed.
Print Assumptions C08_force_move_dominates_barker.

(** ** C09 *)
(** Full claim: the second output is the probability of leaving [k].  False. *)
Theorem C09_force_alpha_refuted :
  exists (n : nat) (w : 'I_n -> R) (k : 'I_n), prob_vec w /\
  forall key, always (fun r => r.2 <> Pr (force_move key w k) (fun r' => r'.1 != k))
                     (force_move key w k).
Proof. exact: force_alpha_wrong. Qed.
Print Assumptions C09_force_alpha_refuted.

(** It is an upper bound always, and exact when [k] has the largest weight. *)
Theorem C09_force_alpha_bound (n' : nat) (key : key) (w : 'I_n'.+1 -> R) (k : 'I_n'.+1) :
  prob_vec w ->
  always (fun r => Pr (force_move key w k) (fun r' => r'.1 != k) <= r.2 <= 1) (force_move key w k)
  /\ ((w k < 1 - exp (- n'.+1%:R) \/ w k < 1 - 1 / IZR 1000000000000 \/ w k = 1) ->
      (forall l, w l <= w k) ->
      always (fun r => r.2 = Pr (force_move key w k) (fun r' => r'.1 != k)) (force_move key w k)).
Proof. exact: force_alpha_spec. Qed.
Print Assumptions C09_force_alpha_bound.

(** ** Non-vacuity: the weights (0.3, 0.6, 0.1) meet every hypothesis above. *)
Example ex_weights : prob_vec w369 /\ (forall k, w369 k < 1 - 1 / IZR 1000000000000).
Proof. exact: w369_ok. Qed.
Example ex_max : forall l, w369 l <= w369 (lift ord0 ord0).
Proof. exact: w369_max. Qed.
(** A degenerate vector also meets them. *)
Example ex_degenerate : prob_vec (fun i : 'I_3 => if i == ord0 then 1 else 0).
Proof. exact: deg_ok. Qed.
Example ex_uniform : prob_vec (fun i : 'I_3 => 1 / 3%:R).
Proof. exact: unif_ok. Qed.
