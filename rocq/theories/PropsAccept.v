(** * Property theorems C75: averages over the moves of a chain and the acceptance rates that the sampling loop records.
    Statements only; the proofs are in AcceptProofs.v and AcceptFinal.v.

    One move is the trajectory before, the trajectory after and which indices changed.  [settles_moves] (AcceptSpec.v):
    the law of a move depends neither on the key nor on the values of the indices; from every start, averages of bounded
    functions of the moves converge in mean square to their mean when the trajectory before follows the target.

    States range over a finite set or a finite group; [final_move] (RunFinal.v) is either a move that meets its contract
    (Barker), without bias, or the forced move of the code with the bias of its threshold. *)
From Coq Require Import Reals.
From mathcomp Require Import all_ssreflect all_algebra.
From Verif Require Import RInst Prog Resampling Spec Csmc CsmcInvariance CsmcSpecs AuxCsmc AuxFinal TpCsmc TpFinal Drivers.
From Verif Require Import ErgodicSpec ErgodicFinal ErgodicTp ProperSpec RunFinal AcceptSpec AcceptFinal AcceptExamples.

Set Implicit Arguments.
Unset Strict Implicit.
Unset Printing Implicit Defensive.
Import GRing.Theory Num.Theory Order.TTheory.
Local Open Scope ring_scope.

(** ** C75 *)
Theorem C75_csmc (X : finType) (n' : nat) (P Q : Type) (md : model X n' P Q) (mu0 : X -> R) (mut : X -> P -> X -> R)
    (rs : resampler n'.+1) (mv : mover n'.+1) (bias : R -> R) (backward : bool) ps qs :
  (0 < n')%N -> mixing_resampler rs -> draws_resampler rs -> final_move mv bias ->
  markov_model md mu0 mut -> size ps = size qs -> (0 < #|X|)%N ->
  settles_moves (size qs) (path_target (Gamma0 md) (Gammat md) qs)
    (fun key x0 xs b0 bs => drop_weights (kernel rs mv md key x0 xs b0 bs ps qs backward true)) bias.
Proof. by move=> h1 h2 h3 h4 mk *; apply: (csmc_moves _ h1 h2 h3 h4 mk). Qed.
Print Assumptions C75_csmc.

Theorem C75_rw (X : finZmodType) (n' : nat) (Q setting : Type) (noise : setting -> X -> R)
    (rs : resampler n'.+1) (mv : mover n'.+1) (bias : R -> R) (backward : bool)
    (G0 : X -> R) (Gt : X -> X -> Q -> R) (s0 : setting) ss qs :
  (0 < n')%N -> mixing_resampler rs -> draws_resampler rs -> final_move mv bias ->
  size ss = size qs -> (forall s, prob_vec (noise s)) -> (forall s z, 0 < noise s z) ->
  (forall s z, noise s (- z) = noise s z) ->
  settles_moves (size qs) (path_target G0 Gt qs) (fun key x0 xs b0 bs =>
    drop_weights (rw_kernel noise rs mv G0 Gt xpredT key x0 xs b0 bs s0 ss qs backward)) bias.
Proof. by move=> *; apply: rw_moves. Qed.
Print Assumptions C75_rw.

Theorem C75_l (X : finZmodType) (n' : nat) (Q setting : Type) (noise : setting -> X -> R)
    (scale : setting -> X -> X) (logH : setting -> {ffun 'I_n'.+1 -> X} -> X -> X -> R)
    (rs : resampler n'.+1) (mv : mover n'.+1) (bias : R -> R) (backward : bool)
    (G0 : X -> R) (Gt : X -> X -> Q -> R) (g0 : X -> X) (gt : X -> X -> Q -> X) (s0 : setting) ss qs :
  (0 < n')%N -> mixing_resampler rs -> draws_resampler rs -> final_move mv bias ->
  size ss = size qs -> (forall s, prob_vec (noise s)) -> (forall s z, 0 < noise s z) ->
  (forall s, exists S : {ffun 'I_n'.+1 -> X} -> R, forall (x : {ffun 'I_n'.+1 -> X}) b phi,
     \sum_u noise s (u - (x b + phi)) * \prod_(i | i != b) noise s (x i - u)
     = S x * exp (logH s x phi (x b))) ->
  (forall s x a phi y, logH s (moved a x) phi y = logH s x phi y) ->
  settles_moves (size qs) (path_target G0 Gt qs) (fun key x0 xs b0 bs =>
    drop_weights (l_kernel noise scale logH rs mv G0 Gt g0 gt key x0 xs b0 bs s0 ss qs backward)) bias.
Proof. by move=> *; apply: l_moves. Qed.
Print Assumptions C75_l.

Theorem C75_al (X : finZmodType) (n' : nat) (Q setting : Type) (noise ld : setting -> X -> R)
    (scale : setting -> X -> X) (rs : resampler n'.+1) (mv : mover n'.+1) (bias : R -> R) (backward : bool)
    (G0 : X -> R) (Gt : X -> X -> Q -> R) (g0 : X -> X) (gt : X -> X -> Q -> X) (s0 : setting) ss qs :
  (0 < n')%N -> mixing_resampler rs -> draws_resampler rs -> final_move mv bias ->
  size ss = size qs -> (forall s, prob_vec (noise s)) -> (forall s z, 0 < noise s z) ->
  (forall s, exists c, c != 0 /\ forall z, exp (ld s z) = c * noise s z) ->
  settles_moves (size qs) (path_target G0 Gt qs) (fun key x0 xs b0 bs =>
    drop_weights (al_kernel noise ld scale rs mv G0 Gt g0 gt key x0 xs b0 bs s0 ss qs backward)) bias.
Proof. by move=> *; apply: al_moves. Qed.
Print Assumptions C75_al.

Theorem C75_tp (X : finZmodType) (n' : nat) (Q : Type)
    (noise0 : X -> R) (noise : Q -> X -> R) (scale0 : X -> X) (scale : Q -> X -> X)
    (pnoise0 : X -> R) (pnoise : Q -> X -> R) (mean0 : X -> X) (mean : Q -> X -> X -> X)
    (prior0 : X -> R) (prior : X -> X -> Q -> R) (r0 : X -> R) (rt : X -> X -> Q -> R)
    (g0 : X -> X) (gt : X -> X -> Q -> X)
    (logH0 : {ffun 'I_n'.+1 -> X} -> X -> 'I_n'.+1 -> R)
    (logH : Q -> {ffun 'I_n'.+1 -> X} -> {ffun 'I_n'.+1 -> X} -> X -> 'I_n'.+1 -> R)
    (rs : resampler n'.+1) (mv : mover n'.+1) (bias : R -> R) (backward : bool) qs :
  (0 < n')%N -> mixing_resampler rs -> draws_resampler rs -> final_move mv bias ->
  prob_vec noise0 -> (forall q, prob_vec (noise q)) -> prob_vec pnoise0 -> (forall q, prob_vec (pnoise q)) ->
  (forall z, 0 < noise0 z) -> (forall q z, 0 < noise q z) -> (forall z, 0 < pnoise0 z) -> (forall q z, 0 < pnoise q z) ->
  (forall (x : {ffun 'I_n'.+1 -> X}) (a b : 'I_n'.+1) phi, logH0 (moved a x) phi (b + a) = logH0 x phi b) ->
  (forall q (xm x : {ffun 'I_n'.+1 -> X}) (a b : 'I_n'.+1) phi,
     logH q (moved a xm) (moved a x) phi (b + a) = logH q xm x phi b) ->
  (exists S : {ffun 'I_n'.+1 -> X} -> R, forall (x : {ffun 'I_n'.+1 -> X}) b phi,
     \sum_u noise0 (u - (x b + phi)) * \prod_(i | i != b) pnoise0 (x i - mean0 u)
     = S x * exp (logH0 x phi b)) ->
  (forall q (xm : {ffun 'I_n'.+1 -> X}), exists S : {ffun 'I_n'.+1 -> X} -> R, forall (x : {ffun 'I_n'.+1 -> X}) b phi,
     \sum_u noise q (u - (x b + phi)) * \prod_(i | i != b) pnoise q (x i - mean q (xm i) u)
     = S x * exp (logH q xm x phi b)) ->
  settles_moves (size qs) (path_target (fun x => prior0 x + r0 x) (fun x y q => prior x y q + rt x y q) qs)
    (fun key x0 xs b0 bs => drop_weights
       (tp_kernel noise0 noise scale0 scale pnoise0 pnoise mean0 mean prior0 prior r0 rt g0 gt logH0 logH rs mv key x0 xs b0 bs qs backward))
    bias.
Proof. by move=> *; apply: tp_moves. Qed.
Print Assumptions C75_tp.

(** ** What the sampling loop records *)
(** Any bounded function of a recorded trajectory and of the indicators of change recorded with it. *)
Theorem C75_recorded (X : finType) (n' m : nat) (target : X -> seq X -> R) (bias : R -> R)
    (kern : key -> X -> seq X -> 'I_n'.+1 -> seq 'I_n'.+1 -> prog (seq X * seq 'I_n'.+1)) :
  settles m target kern bias -> settles_moves m target kern bias ->
  exists2 e, 0 < e <= 1 &
  forall key x0 xs (B : 'I_m.+1 -> 'I_n'.+1) n k (F : seq X * ('I_m.+1 -> bool) -> R) c,
    size xs = m -> (0 < k)%N -> (0 < n)%N -> (forall z, `|F z| <= c) ->
    E (mcmc_sampling (indexed kern) key (x0 :: xs, B) n k)
      (fun out => if out is inl r then
         (average F (zip r.1 r.2) - move_mean m target kern (fun v => F (of_move m v))) ^+ 2 else 0)
    <= 16%:R * c ^+ 2 * (1 + 4%:R / e) / ((n + k.-1) %/ k)%:R + 8%:R * c * (bias c / e).
Proof. exact: recorded_moves. Qed.
Print Assumptions C75_recorded.

(** The recorded acceptance rate of each time. *)
Theorem C75_acceptance (X : finType) (n' m : nat) (target : X -> seq X -> R) (bias : R -> R)
    (kern : key -> X -> seq X -> 'I_n'.+1 -> seq 'I_n'.+1 -> prog (seq X * seq 'I_n'.+1)) :
  settles m target kern bias -> settles_moves m target kern bias ->
  exists2 e, 0 < e <= 1 &
  forall key x0 xs (B : 'I_m.+1 -> 'I_n'.+1) n k (t : 'I_m.+1), size xs = m -> (0 < k)%N -> (0 < n)%N ->
    E (mcmc_sampling (indexed kern) key (x0 :: xs, B) n k)
      (fun out => if out is inl r then
         (average (fun a : 'I_m.+1 -> bool => (a t)%:R) r.2 - acceptance m target kern t) ^+ 2 else 0)
    <= 16%:R * (1 + 4%:R / e) / ((n + k.-1) %/ k)%:R + 8%:R * (bias 1 / e).
Proof. exact: recorded_acceptance. Qed.
Print Assumptions C75_acceptance.

Theorem C75_acceptance_consistent (X : finType) (n' m : nat) (target : X -> seq X -> R)
    (kern : key -> X -> seq X -> 'I_n'.+1 -> seq 'I_n'.+1 -> prog (seq X * seq 'I_n'.+1)) (h eps : R) :
  settles m target kern (fun=> 0) -> settles_moves m target kern (fun=> 0) ->
  (forall key x0 xs b0 bs, proper (kern key x0 xs b0 bs)) -> 0 < h -> 0 < eps ->
  exists N, forall key x0 xs (B : 'I_m.+1 -> 'I_n'.+1) n k (t : 'I_m.+1), size xs = m -> (0 < k)%N -> (N * k <= n)%N ->
    Pr (mcmc_sampling (indexed kern) key (x0 :: xs, B) n k)
       (fun out => if out is inl r then
          h <= `|average (fun a : 'I_m.+1 -> bool => (a t)%:R) r.2 - acceptance m target kern t| else false) <= eps.
Proof. by move=> h1 h2 h3 h4 h5; exact: (acceptance_consistent h1 h2 h3 h4 h5). Qed.
Print Assumptions C75_acceptance_consistent.

(** Non-vacuity: the two-state model with uniform proposals; one of its acceptance probabilities. *)
Example ex_settles_moves n' G0 Gt (qs : seq unit) : (0 < n')%N ->
  settles_moves (size qs) (path_target G0 Gt qs)
    (fun key x0 xs b0 bs =>
       drop_weights (kernel (@killing n') (@barker_move _) (ex_model n' G0 Gt) key x0 xs b0 bs qs qs false true)) (fun=> 0).
Proof. exact: ex_moves. Qed.
Example ex_acceptance_value n' :
  acceptance 0 (path_target (fun=> 0) (fun _ _ (_ : unit) => 0) [::])
    (fun key x0 xs b0 bs =>
       drop_weights (kernel (@multinomial n'.+1) (@barker_move n'.+1) (ex_model n' (fun=> 0) (fun _ _ _ => 0))
         key x0 xs b0 bs [::] [::] false true)) 0 = n'%:R / n'.+1%:R.
Proof. exact: ex_acceptance. Qed.
