(** * CsmcFinal: final form of the facts stated in PropsCsmc. *)
From Coq Require Import Reals.
From mathcomp Require Import all_ssreflect all_algebra.
From Verif Require Import RInst Prog ProgTheory Resampling Spec ResamplingProofs MoveProofs.
From Verif Require Import Csmc CsmcInvariance CsmcProofs KeyProofs CsmcSpecs.

Set Implicit Arguments.
Unset Strict Implicit.
Unset Printing Implicit Defensive.
Import GRing.Theory Num.Theory Order.TTheory.
Local Open Scope ring_scope.

Lemma csmc_markov (X : finType) (n' : nat) (P Q : Type) (md : model X n' P Q)
    (mu0 : X -> R) (mut : X -> P -> X -> R) rs mv (key : key) ps qs (backward : bool) :
  markov_model md mu0 mut -> good_resampler rs -> good_mover mv -> size ps = size qs ->
  leaves_invariant (size qs) (path_target (Gamma0 md) (Gammat md) qs)
    (fun x0 xs b0 bs => drop_weights (kernel rs mv md key x0 xs b0 bs ps qs backward true)).
Proof.
move=> mk gr gm s; apply: csmc_invariant => //; [exact: markov_init mk|exact: markov_step mk].
Qed.

Lemma contracts (n' : nat) :
  [/\ good_resampler (@multinomial n'.+1), good_resampler (@killing n') & good_mover (@barker_move n'.+1)].
Proof. by split; [exact: multinomial_good|exact: killing_good|exact: barker_good]. Qed.

Lemma csmc_general (X : finType) (n' : nat) (P Q : Type) (md : model X n' P Q)
    rs mv (key : key) ps qs (backward : bool) :
  good_init md -> good_step md ->
  good_resampler rs -> good_mover mv -> size ps = size qs ->
  leaves_invariant (size qs) (path_target (Gamma0 md) (Gammat md) qs)
    (fun x0 xs b0 bs => drop_weights (kernel rs mv md key x0 xs b0 bs ps qs backward true)).
Proof. by move=> gi gs gr gm s; exact: csmc_invariant. Qed.

Lemma force_refuted : exists (G0 : bool -> R) (Gt : bool -> bool -> unit -> R), forall key,
  markov_model (ex_model 1 G0 Gt) (fun _ => half) (fun _ _ _ => half) /\
  ~ leaves_invariant 0 (path_target G0 Gt [::])
      (fun x0 xs b0 bs => drop_weights
         (kernel (@multinomial 2) (@force_move 2) (ex_model 1 G0 Gt) key x0 xs b0 bs [::] [::] false true)).
Proof.
have [G0 [Gt H]] := force_kernel_refuted; exists G0, Gt => key; split; [exact: ex_markov|exact: H].
Qed.

Lemma csmc_force (X : finType) (n' : nat) (P Q : Type) (md : model X n' P Q)
    (mu0 : X -> R) (mut : X -> P -> X -> R) rs (key : key) ps qs (backward : bool)
    (f : seq X -> seq 'I_n'.+1 -> R) (c : R) :
  markov_model md mu0 mut -> good_resampler rs -> size ps = size qs -> (forall xs bs, `|f xs bs| <= c) ->
  `| traj_sum (size qs) (fun x0 xs b0 bs => path_target (Gamma0 md) (Gammat md) qs x0 xs *
       E (drop_weights (kernel rs (@force_move _) md key x0 xs b0 bs ps qs backward true)) (fun r => f r.1 r.2))
     - traj_sum (size qs) (fun x0 xs b0 bs => path_target (Gamma0 md) (Gammat md) qs x0 xs * f (x0 :: xs) (b0 :: bs)) |
  <= traj_sum (size qs) (fun x0 xs (b0 : 'I_n'.+1) bs => path_target (Gamma0 md) (Gammat md) qs x0 xs *
       (4%:R * c * Num.min (exp (- n'.+1%:R)) (1 / IZR 1000000000000))).
Proof.
move=> mk gr s fc.
apply: (@csmc_error X n' P Q md rs (@force_move _) (markov_init mk) (markov_step mk) gr
  key ps qs backward f c) => // k w g pw gc.
exact: force_error.
Qed.

Lemma kernel_traced (X : Type) (n' : nat) (P Q : Type) (md : model X n' P Q)
    (rs : resampler n'.+1) (mv : mover n'.+1) (key : key) x0 xs b0 bs ps qs (backward conditional : bool)
    (PO : fwd_out X n' -> Prop) :
  size ps = size qs -> size bs = size qs -> size xs = size qs ->
  always PO (forward_pass rs md key x0 xs b0 bs ps qs conditional) ->
  always (fun r => exists o, [/\ PO o,
       size r.1.1 = (size xs).+1 /\ size r.1.2 = (size xs).+1,
       forall t, (t <= size xs)%N -> forall dx db dg,
         nth dx r.1.1 t = (nth dg (gens o) t).2 (nth db r.1.2 t)
     & ~~ backward -> forall t, (t < size xs)%N -> forall db dg,
         nth db r.1.2 t = (nth dg o.2 t).1.2 (nth db r.1.2 t.+1)])
    (kernel rs mv md key x0 xs b0 bs ps qs backward conditional).
Proof.
move=> s1 s2 s3 Ho.
apply: (@kernel_always X n' P Q md rs mv key x0 xs b0 bs ps qs backward conditional PO
  (fun r => exists o, [/\ PO o, size r.1 = (size xs).+1 /\ size r.2 = (size xs).+1,
       forall t, (t <= size xs)%N -> forall dx db dg,
         nth dx r.1 t = (nth dg (gens o) t).2 (nth db r.2 t)
     & ~~ backward -> forall t, (t < size xs)%N -> forall db dg,
         nth db r.2 t = (nth dg o.2 t).1.2 (nth db r.2 t.+1)])) => // o r po so [e1 e2 e3] lk.
by exists o; rewrite s3 -so.
Qed.

Lemma kernel_ignores (X : Type) (n' : nat) (P Q : Type) (md : model X n' P Q)
    (rs : resampler n'.+1) (mv : mover n'.+1) (key : key) x0 xs b0 bs x0' xs' b0' bs' ps qs (backward : bool) f :
  rs = @multinomial _ \/ rs = @killing _ -> backward \/ mv = @barker_move _ ->
  size xs' = size xs -> size bs' = size bs ->
  E (kernel rs mv md key x0 xs b0 bs ps qs backward false) f
  = E (kernel rs mv md key x0' xs' b0' bs' ps qs backward false) f.
Proof.
move=> ers emv sx sb; apply: kernel_unconditional => //; first by case: ers => ->.
case: emv => [->|->]; [by left|right => k w i j g].
by rewrite /barker_move !E_bind.
Qed.

Lemma uses_callbacks (n' : nat) (key : key) (w : 'I_n'.+1 -> R) (i j k : 'I_n'.+1) (b : bool) :
  [/\ uses [:: key] (multinomial key w i j b), uses [:: key] (killing key w i j b),
      uses [:: key] (force_move key w k) & uses [:: key] (barker_move key w k)].
Proof. by split; [exact: uses_multinomial|exact: uses_killing|exact: uses_force|exact: uses_barker]. Qed.

Lemma uses_kernel_spec (X : Type) (n' : nat) (P Q : Type) (md : model X n' P Q)
    (rs : resampler n'.+1) (mv : mover n'.+1) (key : key) x0 xs b0 bs ps qs (backward conditional : bool) :
  (forall key w i j b, uses [:: key] (rs key w i j b)) ->
  (forall key w k, uses [:: key] (mv key w k)) ->
  (forall key, uses [:: key] (M0_rvs md key)) ->
  (forall key x p, uses [:: key] (Mt_rvs md key x p)) ->
  uses [:: key] (kernel rs mv md key x0 xs b0 bs ps qs backward conditional).
Proof. by move=> *; apply: uses_kernel. Qed.
