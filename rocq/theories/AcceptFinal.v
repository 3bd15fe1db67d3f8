(** * AcceptFinal: final forms for C75. *)
From Coq Require Import Reals Lra.
From mathcomp Require Import all_ssreflect all_algebra.
From Verif Require Import RInst Prog ProgTheory Resampling Spec Csmc CsmcInvariance CsmcSpecs CsmcFinal AuxCsmc AuxFinal TpCsmc TpFinal Twisted TwistedKernel.
From Verif Require Import Drivers DriverProofs ErgodicSpec ErgodicChain ErgodicCsmc ErgodicSweep ErgodicFinal ErgodicTp ProperSpec ProperProofs RunFinal EsjdFinal.
From Verif Require Import AcceptSpec AcceptProofs.

Set Implicit Arguments.
Unset Strict Implicit.
Unset Printing Implicit Defensive.
Import GRing.Theory Num.Theory Order.TTheory.
Local Open Scope ring_scope.

Section Kernels.
Variables (n' : nat) (rs : resampler n'.+1) (mv : mover n'.+1) (bias : R -> R) (backward : bool).
Hypotheses (n0 : (0 < n')%N) (mr : mixing_resampler rs) (rsP : draws_resampler rs) (fm : final_move mv bias).

Lemma csmc_moves (X : finType) (P Q : Type) (md : model X n' P Q) (mu0 : X -> R) (mut : X -> P -> X -> R) ps qs :
  markov_model md mu0 mut -> size ps = size qs -> (0 < #|X|)%N ->
  settles_moves (size qs) (path_target (Gamma0 md) (Gammat md) qs)
    (fun key x0 xs b0 bs => drop_weights (kernel rs mv md key x0 xs b0 bs ps qs backward true)) bias.
Proof.
move=> mk sz X0; have fd := final_draws fm; have [mrot _ mpr] := final_mixing fm; have fb := final_bias fm.
have [gr rot _ _] := mr.
apply: settles_of_moves => //.
- by move=> x xs; exact: path_target_gt0.
- move=> key x0 xs b0 bs; apply: drop_proper; apply: kernel_proper => // [k|k xm p].
  + by have [h _ _ _] := mk; have [h' _ _] := h k.
  + by have [_ _ h _] := mk; have [h' _ _] := h k xm p.
- by move=> key key' x0 xs b0 bs b0' bs' f sx sb sb'; apply: (csmc_joint backward (markov_rotating mk)).
- by case: fm => [[mm gm ->]|[-> ->]]; [apply: (csmc_settles backward mk)|apply: (csmc_settles_force backward mk)].
Qed.

Section Three.
Variables (X : finZmodType) (Q setting : Type) (noise ld : setting -> X -> R).
Variables (scale : setting -> X -> X) (logH : setting -> {ffun 'I_n'.+1 -> X} -> X -> X -> R).
Variables (G0 : X -> R) (Gt : X -> X -> Q -> R) (g0 : X -> X) (gt : X -> X -> Q -> X) (qs : seq Q).
Variables (s0 : setting) (ss : seq setting).
Hypotheses (sz : size ss = size qs) (noiseP : forall s, prob_vec (noise s)) (noise_gt0 : forall s z, 0 < noise s z).
Local Notation target := (path_target G0 Gt qs).

Lemma rw_moves : (forall s z, noise s (- z) = noise s z) -> settles_moves (size qs) target
  (fun key x0 xs b0 bs => drop_weights (rw_kernel noise rs mv G0 Gt xpredT key x0 xs b0 bs s0 ss qs backward)) bias.
Proof.
move=> ev; have fd := final_draws fm; have [mrot _ mpr] := final_mixing fm; have fb := final_bias fm.
have [gr rot _ _] := mr.
apply: settles_of_moves => //.
- by move=> x xs; exact: path_target_gt0.
- by move=> key x0 xs b0 bs; apply: drop_proper; exact: rw_proper.
- by move=> key key' x0 xs b0 bs b0' bs' f sx sb sb'; apply: rw_joint.
- by case: fm => [[mm gm ->]|[-> ->]]; [exact: rw_settles|exact: rw_settles_force].
Qed.

Lemma l_moves :
  (forall s, exists S : {ffun 'I_n'.+1 -> X} -> R, forall (x : {ffun 'I_n'.+1 -> X}) b phi,
     \sum_u noise s (u - (x b + phi)) * \prod_(i | i != b) noise s (x i - u) = S x * exp (logH s x phi (x b))) ->
  (forall s x a phi y, logH s (moved a x) phi y = logH s x phi y) -> settles_moves (size qs) target
  (fun key x0 xs b0 bs => drop_weights
     (l_kernel noise scale logH rs mv G0 Gt g0 gt key x0 xs b0 bs s0 ss qs backward)) bias.
Proof.
move=> cor lm; have fd := final_draws fm; have [mrot _ mpr] := final_mixing fm; have fb := final_bias fm.
have [gr rot _ _] := mr.
apply: settles_of_moves => //.
- by move=> x xs; exact: path_target_gt0.
- by move=> key x0 xs b0 bs; apply: drop_proper; exact: l_proper.
- by move=> key key' x0 xs b0 bs b0' bs' f sx sb sb'; apply: l_joint.
- by case: fm => [[mm gm ->]|[-> ->]]; [exact: l_settles|exact: l_settles_force].
Qed.

Lemma al_moves : (forall s, exists c, c != 0 /\ forall z, exp (ld s z) = c * noise s z) -> settles_moves (size qs) target
  (fun key x0 xs b0 bs => drop_weights
     (al_kernel noise ld scale rs mv G0 Gt g0 gt key x0 xs b0 bs s0 ss qs backward)) bias.
Proof.
move=> ldP; have fd := final_draws fm; have [mrot _ mpr] := final_mixing fm; have fb := final_bias fm.
have [gr rot _ _] := mr.
apply: settles_of_moves => //.
- by move=> x xs; exact: path_target_gt0.
- by move=> key x0 xs b0 bs; apply: drop_proper; exact: al_proper.
- by move=> key key' x0 xs b0 bs b0' bs' f sx sb sb'; apply: al_joint.
- by case: fm => [[mm gm ->]|[-> ->]]; [exact: al_settles|exact: al_settles_force].
Qed.
End Three.

Section Tp.
Variables (X : finZmodType) (Q : Type).
Variables (noise0 : X -> R) (noise : Q -> X -> R) (scale0 : X -> X) (scale : Q -> X -> X).
Variables (pnoise0 : X -> R) (pnoise : Q -> X -> R) (mean0 : X -> X) (mean : Q -> X -> X -> X).
Variables (prior0 : X -> R) (prior : X -> X -> Q -> R) (r0 : X -> R) (rt : X -> X -> Q -> R).
Variables (g0 : X -> X) (gt : X -> X -> Q -> X) (qs : seq Q).
Local Notation target := (path_target (fun x => prior0 x + r0 x) (fun x y q => prior x y q + rt x y q) qs).

Lemma tp_moves (logH0 : {ffun 'I_n'.+1 -> X} -> X -> 'I_n'.+1 -> R)
    (logH : Q -> {ffun 'I_n'.+1 -> X} -> {ffun 'I_n'.+1 -> X} -> X -> 'I_n'.+1 -> R) :
  prob_vec noise0 -> (forall q, prob_vec (noise q)) -> prob_vec pnoise0 -> (forall q, prob_vec (pnoise q)) ->
  (forall z, 0 < noise0 z) -> (forall q z, 0 < noise q z) -> (forall z, 0 < pnoise0 z) -> (forall q z, 0 < pnoise q z) ->
  (forall (x : {ffun 'I_n'.+1 -> X}) (a b : 'I_n'.+1) phi, logH0 (moved a x) phi (b + a) = logH0 x phi b) ->
  (forall q (xm x : {ffun 'I_n'.+1 -> X}) (a b : 'I_n'.+1) phi, logH q (moved a xm) (moved a x) phi (b + a) = logH q xm x phi b) ->
  (exists S : {ffun 'I_n'.+1 -> X} -> R, forall (x : {ffun 'I_n'.+1 -> X}) b phi,
     \sum_u noise0 (u - (x b + phi)) * \prod_(i | i != b) pnoise0 (x i - mean0 u) = S x * exp (logH0 x phi b)) ->
  (forall q (xm : {ffun 'I_n'.+1 -> X}), exists S : {ffun 'I_n'.+1 -> X} -> R, forall (x : {ffun 'I_n'.+1 -> X}) b phi,
     \sum_u noise q (u - (x b + phi)) * \prod_(i | i != b) pnoise q (x i - mean q (xm i) u) = S x * exp (logH q xm x phi b)) ->
  settles_moves (size qs) target
    (fun key x0 xs b0 bs => drop_weights
       (tp_kernel noise0 noise scale0 scale pnoise0 pnoise mean0 mean prior0 prior r0 rt
          g0 gt logH0 logH rs mv key x0 xs b0 bs qs backward)) bias.
Proof.
move=> k1 k2 k3 k4 k5 k6 k7 k8 k9 k10 k11 k12; have fd := final_draws fm; have mm := final_mixing fm; have fb := final_bias fm.
apply: settles_of_moves => //.
- by move=> x xs; exact: path_target_gt0.
- by move=> key x0 xs b0 bs; apply: drop_proper; exact: tp_proper.
- by move=> key key' x0 xs b0 bs b0' bs' f sx sb sb'; apply: tp_joint.
- by case: fm => [[_ gm ->]|[-> ->]]; [exact: tp_settles|exact: tp_settles_force].
Qed.

Lemma atp_moves (ld0 pld0 : X -> R) (ld pld : Q -> X -> R) :
  prob_vec noise0 -> (forall q, prob_vec (noise q)) -> prob_vec pnoise0 -> (forall q, prob_vec (pnoise q)) ->
  (forall z, 0 < noise0 z) -> (forall q z, 0 < noise q z) -> (forall z, 0 < pnoise0 z) -> (forall q z, 0 < pnoise q z) ->
  (exists c, c != 0 /\ forall z, exp (ld0 z) = c * noise0 z) ->
  (forall q, exists c, c != 0 /\ forall z, exp (ld q z) = c * noise q z) ->
  (exists c, c != 0 /\ forall z, exp (pld0 z) = c * pnoise0 z) ->
  (forall q, exists c, c != 0 /\ forall z, exp (pld q z) = c * pnoise q z) ->
  settles_moves (size qs) target
    (fun key x0 xs b0 bs => drop_weights
       (atp_kernel noise0 ld0 noise ld scale0 scale pnoise0 pld0 pnoise pld mean0 mean prior0 prior r0 rt g0 gt rs mv
          key x0 xs b0 bs qs backward)) bias.
Proof.
move=> k1 k2 k3 k4 k5 k6 k7 k8 k9 k10 k11 k12; have fd := final_draws fm; have mm := final_mixing fm; have fb := final_bias fm.
apply: settles_of_moves => //.
- by move=> x xs; exact: path_target_gt0.
- by move=> key x0 xs b0 bs; apply: drop_proper; exact: atp_proper.
- by move=> key key' x0 xs b0 bs b0' bs' f sx sb sb'; apply: atp_joint.
- by case: fm => [[_ gm ->]|[-> ->]]; [exact: atp_settles|exact: atp_settles_force].
Qed.
End Tp.
End Kernels.

(** ** What the loop records *)
Section Loop.
Variables (X : finType) (n' m : nat) (target : X -> seq X -> R) (bias : R -> R).
Local Notation I := ('I_n'.+1).
Variable kern : key -> X -> seq X -> I -> seq I -> prog (seq X * seq I).
Hypotheses (st : settles m target kern bias) (sm : settles_moves m target kern bias).
Local Notation mean F := (move_mean m target kern (fun v => F (of_move m v))).

Lemma recorded_moves : exists2 e, 0 < e <= 1 &
  forall key x0 xs (B : 'I_m.+1 -> I) n k (F : seq X * ('I_m.+1 -> bool) -> R) c,
    size xs = m -> (0 < k)%N -> (0 < n)%N -> (forall z, `|F z| <= c) ->
    E (mcmc_sampling (indexed kern) key (x0 :: xs, B) n k)
      (fun out => if out is inl r then (average F (zip r.1 r.2) - mean F) ^+ 2 else 0)
    <= 16%:R * c ^+ 2 * (1 + 4%:R / e) / ((n + k.-1) %/ k)%:R + 8%:R * c * (bias c / e).
Proof.
have [sizes _] := st; have [_ [e e01 av]] := sm; exists e => // key x0 xs B n k F c sx k0 n0 Fc.
exact: (loop_moves sizes av).
Qed.

Lemma sizes_recorded key x0 xs (B : 'I_m.+1 -> I) n k :
  always (fun out => if out is inl r then size r.1 = size r.2 else True)
    (mcmc_sampling (indexed kern) key (x0 :: xs, B) n k).
Proof.
rewrite mcmc_samplingE; apply/always_bind; apply: always_true => l /=; case: ifP => // _.
by rewrite /= !size_thinned size_map size_pairmap.
Qed.

Lemma recorded_acceptance : exists2 e, 0 < e <= 1 &
  forall key x0 xs (B : 'I_m.+1 -> I) n k (t : 'I_m.+1), size xs = m -> (0 < k)%N -> (0 < n)%N ->
    E (mcmc_sampling (indexed kern) key (x0 :: xs, B) n k)
      (fun out => if out is inl r then (average (fun a : 'I_m.+1 -> bool => (a t)%:R) r.2 - acceptance m target kern t) ^+ 2 else 0)
    <= 16%:R * (1 + 4%:R / e) / ((n + k.-1) %/ k)%:R + 8%:R * (bias 1 / e).
Proof.
have [sizes _] := st; have [e e01 H] := recorded_moves; exists e => // key x0 xs B n k t sx k0 n0.
have := H key x0 xs B n k (fun z => (z.2 t)%:R) 1 sx k0 n0.
rewrite expr1n !mulr1 acceptanceE // => h; apply: le_trans (h _); last by move=> z; case: (z.2 t); rewrite ?normr1 ?normr0.
rewrite le_eqVlt; apply/orP; left; apply/eqP; apply: eq_E_always.
apply: always_imp (sizes_recorded key x0 xs B n k) => -[[ss fs]|//] /= sz.
by rewrite /average size_zip sz minnn -{1}(@unzip2_zip _ _ ss fs) ?sz // big_map.
Qed.
End Loop.

Section Consistent.
Variables (X : finType) (n' m : nat) (target : X -> seq X -> R).
Local Notation I := ('I_n'.+1).
Variable kern : key -> X -> seq X -> I -> seq I -> prog (seq X * seq I).
Hypotheses (st : settles m target kern (fun=> 0)) (sm : settles_moves m target kern (fun=> 0))
  (pr : forall key x0 xs b0 bs, proper (kern key x0 xs b0 bs)).

Lemma acceptance_consistent (h eps : R) : 0 < h -> 0 < eps ->
  exists N, forall key x0 xs (B : 'I_m.+1 -> I) n k (t : 'I_m.+1), size xs = m -> (0 < k)%N -> (N * k <= n)%N ->
    Pr (mcmc_sampling (indexed kern) key (x0 :: xs, B) n k)
       (fun out => if out is inl r then
          h <= `|average (fun a : 'I_m.+1 -> bool => (a t)%:R) r.2 - acceptance m target kern t| else false) <= eps.
Proof.
move=> h0 eps0; have [sizes _] := st; have [_ [e e01 av]] := sm.
have [N HN] := @loop_moves_consistent X n' m target (fun=> 0) kern sizes pr e 1 h eps e01 (fun=> erefl) av h0 eps0.
exists N => key x0 xs B n k t sx k0 nk.
have := HN key x0 xs B n k (fun z => (z.2 t)%:R) sx k0 nk.
rewrite acceptanceE // => g.
have /g {}g : forall z : seq X * ('I_m.+1 -> bool), `|(z.2 t)%:R : R| <= 1 by move=> z; case: (z.2 t); rewrite ?normr1 ?normr0 ?ler01 ?lexx.
apply: le_trans g.
rewrite le_eqVlt; apply/orP; left; apply/eqP; apply: eq_E_always.
apply: always_imp (sizes_recorded kern key x0 xs B n k) => -[[ss fs]|//] sz.
rewrite /=.
by rewrite /average size_zip sz minnn -{1}(@unzip2_zip _ _ ss fs) ?sz // big_map.
Qed.
End Consistent.
