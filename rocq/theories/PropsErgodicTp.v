(** * Property theorems C67-C69: the long run of tp_csmc.py, atp_csmc_f.py and t_atp_csmc_f.py, and the speed at
    which every particle kernel forgets its start.  Statements only; the proofs are in the Ergodic* files.

    States range over a finite set ([X] finite) or, where noise is added to states, over a finite abelian group.
    [forgets_start] and [settles] are defined in ErgodicSpec.v. *)
From Coq Require Import Reals.
From mathcomp Require Import all_ssreflect all_algebra.
From Verif Require Import RInst Prog Resampling Spec Csmc CsmcInvariance CsmcSpecs AuxCsmc AuxFinal TpCsmc TpFinal Twisted.
From Verif Require Import ErgodicSpec ErgodicCsmc ErgodicSweep ErgodicFinal ErgodicTp.

Set Implicit Arguments.
Unset Strict Implicit.
Unset Printing Implicit Defensive.
Import GRing.Theory Num.Theory Order.TTheory.
Local Open Scope ring_scope.

(** ** C67 *)
(** Whatever the target, the corrections and the log-densities subtracted in the weights, right or wrong. *)
Theorem C67_tp_indices (X : finZmodType) (n' : nat) (Q : Type)
    (noise0 : X -> R) (noise : Q -> X -> R) (scale0 : X -> X) (scale : Q -> X -> X)
    (pnoise0 : X -> R) (pnoise : Q -> X -> R) (mean0 : X -> X) (mean : Q -> X -> X -> X)
    (prior0 : X -> R) (prior : X -> X -> Q -> R) (r0 : X -> R) (rt : X -> X -> Q -> R)
    (g0 : X -> X) (gt : X -> X -> Q -> X)
    (logH0 : {ffun 'I_n'.+1 -> X} -> X -> 'I_n'.+1 -> R)
    (logH : Q -> {ffun 'I_n'.+1 -> X} -> {ffun 'I_n'.+1 -> X} -> X -> 'I_n'.+1 -> R)
    (rs : resampler n'.+1) (mv : mover n'.+1) qs (backward : bool)
    (key key' : key) x0 xs b0 bs b0' bs' (f : seq X -> R) :
  prob_vec noise0 -> (forall q, prob_vec (noise q)) -> prob_vec pnoise0 -> (forall q, prob_vec (pnoise q)) ->
  (forall z, 0 < noise0 z) -> (forall q z, 0 < noise q z) -> (forall z, 0 < pnoise0 z) -> (forall q z, 0 < pnoise q z) ->
  mixing_resampler rs ->
  (forall (x : {ffun 'I_n'.+1 -> X}) (a b : 'I_n'.+1) phi, logH0 (moved a x) phi (b + a) = logH0 x phi b) ->
  (forall q (xm x : {ffun 'I_n'.+1 -> X}) (a b : 'I_n'.+1) phi,
     logH q (moved a xm) (moved a x) phi (b + a) = logH q xm x phi b) ->
  mixing_mover mv ->
  size xs = size qs -> size bs = size qs -> size bs' = size qs ->
  E (drop_weights (tp_kernel noise0 noise scale0 scale pnoise0 pnoise mean0 mean prior0 prior r0 rt g0 gt logH0 logH rs mv key x0 xs b0 bs qs backward)) (fun r => f r.1)
  = E (drop_weights (tp_kernel noise0 noise scale0 scale pnoise0 pnoise mean0 mean prior0 prior r0 rt g0 gt logH0 logH rs mv key' x0 xs b0' bs' qs backward)) (fun r => f r.1).
Proof. by move=> *; apply: tp_indices. Qed.
Print Assumptions C67_tp_indices.

Theorem C67_atp_indices (X : finZmodType) (n' : nat) (Q : Type)
    (noise0 : X -> R) (noise : Q -> X -> R) (scale0 : X -> X) (scale : Q -> X -> X)
    (pnoise0 : X -> R) (pnoise : Q -> X -> R) (mean0 : X -> X) (mean : Q -> X -> X -> X)
    (prior0 : X -> R) (prior : X -> X -> Q -> R) (r0 : X -> R) (rt : X -> X -> Q -> R)
    (g0 : X -> X) (gt : X -> X -> Q -> X)
    (ld0 pld0 : X -> R) (ld pld : Q -> X -> R)
    (rs : resampler n'.+1) (mv : mover n'.+1) qs (backward : bool)
    (key key' : key) x0 xs b0 bs b0' bs' (f : seq X -> R) :
  prob_vec noise0 -> (forall q, prob_vec (noise q)) -> prob_vec pnoise0 -> (forall q, prob_vec (pnoise q)) ->
  (forall z, 0 < noise0 z) -> (forall q z, 0 < noise q z) -> (forall z, 0 < pnoise0 z) -> (forall q z, 0 < pnoise q z) ->
  mixing_resampler rs -> mixing_mover mv ->
  size xs = size qs -> size bs = size qs -> size bs' = size qs ->
  E (drop_weights (atp_kernel noise0 ld0 noise ld scale0 scale pnoise0 pld0 pnoise pld mean0 mean prior0 prior r0 rt g0 gt rs mv key x0 xs b0 bs qs backward)) (fun r => f r.1)
  = E (drop_weights (atp_kernel noise0 ld0 noise ld scale0 scale pnoise0 pld0 pnoise pld mean0 mean prior0 prior r0 rt g0 gt rs mv key' x0 xs b0' bs' qs backward)) (fun r => f r.1).
Proof. by move=> *; apply: atp_indices. Qed.
Print Assumptions C67_atp_indices.

Theorem C67_t_atp_indices (X : finZmodType) (n' : nat) (Q W : Type)
    (noise0 ld0 : X -> R) (noise ld : Q -> X -> R) (scale0 : X -> X) (scale : Q -> X -> X)
    (tparams : X -> seq X -> W * seq W) (law0 lpdf0 : W -> X -> R) (law lpdf : W -> X -> X -> R)
    (r0 : X -> R) (rt : X -> X -> Q -> R) (g0 : X -> X) (gt : X -> X -> Q -> X)
    (rs : resampler n'.+1) (mv : mover n'.+1) qs (backward : bool)
    (key key' : key) x0 xs b0 bs b0' bs' (f : seq X -> R) :
  prob_vec noise0 -> (forall q, prob_vec (noise q)) -> (forall w, prob_vec (law0 w)) -> (forall w x, prob_vec (law w x)) ->
  (forall z, 0 < noise0 z) -> (forall q z, 0 < noise q z) -> (forall w z, 0 < law0 w z) -> (forall w x z, 0 < law w x z) ->
  mixing_resampler rs ->
  (forall u0 us, size us = size qs -> size (tparams u0 us).2 = size qs) ->
  mixing_mover mv ->
  size xs = size qs -> size bs = size qs -> size bs' = size qs ->
  E (drop_weights (tw_kernel noise0 ld0 noise ld scale0 scale tparams law0 lpdf0 law lpdf r0 rt g0 gt rs mv key x0 xs b0 bs qs backward)) (fun r => f r.1)
  = E (drop_weights (tw_kernel noise0 ld0 noise ld scale0 scale tparams law0 lpdf0 law lpdf r0 rt g0 gt rs mv key' x0 xs b0' bs' qs backward)) (fun r => f r.1).
Proof. by move=> *; apply: tw_indices. Qed.
Print Assumptions C67_t_atp_indices.

(** Any two starts, keys and indices: after [t] calls the laws of the trajectories differ by at most (1 - e)^t. *)
Theorem C67_csmc_forgets (X : finType) (n' : nat) (P Q : Type) (md : model X n' P Q)
    (mu0 : X -> R) (mut : X -> P -> X -> R) (rs : resampler n'.+1) (mv : mover n'.+1) ps qs (backward : bool) :
  (forall key, samples_indep (M0_rvs md key) (fun _ => mu0)) ->
  (forall x (a i : 'I_n'.+1), M0_logpdf md (moved a x) (i + a) = M0_logpdf md x i) ->
  (forall key xm p, samples_indep (Mt_rvs md key xm p) (fun i => mut (xm i) p)) ->
  (forall xm xt p (a i : 'I_n'.+1), Mt_logpdf md (moved a xm) (moved a xt) p (i + a) = Mt_logpdf md xm xt p i) ->
  (forall x, 0 < mu0 x) -> (forall x p y, 0 < mut x p y) ->
  mixing_resampler rs -> mixing_mover mv -> size ps = size qs -> (0 < n')%N -> (0 < #|X|)%N ->
  forgets_start (size qs)
    (fun key x0 xs b0 bs => drop_weights (kernel rs mv md key x0 xs b0 bs ps qs backward true)).
Proof. by move=> h1 h2 h3 h4 h5 h6 [gr rot spr _] [mrot lea mpr] sz n0 X0; apply: (@csmc_forgets X n' P Q md mu0 mut). Qed.
Print Assumptions C67_csmc_forgets.

Theorem C67_sweep_forgets (X : finZmodType) (n' : nat) (Q setting : Type) (noise ld : setting -> X -> R)
    (scale : setting -> X -> X) (logH : setting -> {ffun 'I_n'.+1 -> X} -> X -> X -> R)
    (rs : resampler n'.+1) (mv : mover n'.+1) (G0 : X -> R) (Gt : X -> X -> Q -> R)
    (g0 : X -> X) (gt : X -> X -> Q -> X) (s0 : setting) ss qs (backward : bool) :
  (forall s, prob_vec (noise s)) -> (forall s z, 0 < noise s z) ->
  (forall s (x : {ffun 'I_n'.+1 -> X}) a phi y, logH s (moved a x) phi y = logH s x phi y) ->
  mixing_resampler rs -> mixing_mover mv -> size ss = size qs -> (0 < n')%N ->
  [/\ forgets_start (size qs) (fun key x0 xs b0 bs =>
        drop_weights (rw_kernel noise rs mv G0 Gt xpredT key x0 xs b0 bs s0 ss qs backward)),
      forgets_start (size qs) (fun key x0 xs b0 bs =>
        drop_weights (l_kernel noise scale logH rs mv G0 Gt g0 gt key x0 xs b0 bs s0 ss qs backward))
    & forgets_start (size qs) (fun key x0 xs b0 bs =>
        drop_weights (al_kernel noise ld scale rs mv G0 Gt g0 gt key x0 xs b0 bs s0 ss qs backward))].
Proof. by move=> *; apply: three_forget. Qed.
Print Assumptions C67_sweep_forgets.

Theorem C67_tp_forgets (X : finZmodType) (n' : nat) (Q : Type)
    (noise0 : X -> R) (noise : Q -> X -> R) (scale0 : X -> X) (scale : Q -> X -> X)
    (pnoise0 : X -> R) (pnoise : Q -> X -> R) (mean0 : X -> X) (mean : Q -> X -> X -> X)
    (prior0 : X -> R) (prior : X -> X -> Q -> R) (r0 : X -> R) (rt : X -> X -> Q -> R)
    (g0 : X -> X) (gt : X -> X -> Q -> X)
    (logH0 : {ffun 'I_n'.+1 -> X} -> X -> 'I_n'.+1 -> R)
    (logH : Q -> {ffun 'I_n'.+1 -> X} -> {ffun 'I_n'.+1 -> X} -> X -> 'I_n'.+1 -> R)
    (rs : resampler n'.+1) (mv : mover n'.+1) qs (backward : bool) :
  prob_vec noise0 -> (forall q, prob_vec (noise q)) -> prob_vec pnoise0 -> (forall q, prob_vec (pnoise q)) ->
  (forall z, 0 < noise0 z) -> (forall q z, 0 < noise q z) -> (forall z, 0 < pnoise0 z) -> (forall q z, 0 < pnoise q z) ->
  mixing_resampler rs ->
  (forall (x : {ffun 'I_n'.+1 -> X}) (a b : 'I_n'.+1) phi, logH0 (moved a x) phi (b + a) = logH0 x phi b) ->
  (forall q (xm x : {ffun 'I_n'.+1 -> X}) (a b : 'I_n'.+1) phi,
     logH q (moved a xm) (moved a x) phi (b + a) = logH q xm x phi b) ->
  (0 < n')%N -> mixing_mover mv ->
  forgets_start (size qs) (fun key x0 xs b0 bs => drop_weights
    (tp_kernel noise0 noise scale0 scale pnoise0 pnoise mean0 mean prior0 prior r0 rt g0 gt logH0 logH rs mv key x0 xs b0 bs qs backward)).
Proof. by move=> *; apply: tp_forgets. Qed.
Print Assumptions C67_tp_forgets.

Theorem C67_atp_forgets (X : finZmodType) (n' : nat) (Q : Type)
    (noise0 : X -> R) (noise : Q -> X -> R) (scale0 : X -> X) (scale : Q -> X -> X)
    (pnoise0 : X -> R) (pnoise : Q -> X -> R) (mean0 : X -> X) (mean : Q -> X -> X -> X)
    (prior0 : X -> R) (prior : X -> X -> Q -> R) (r0 : X -> R) (rt : X -> X -> Q -> R)
    (g0 : X -> X) (gt : X -> X -> Q -> X)
    (ld0 pld0 : X -> R) (ld pld : Q -> X -> R)
    (rs : resampler n'.+1) (mv : mover n'.+1) qs (backward : bool) :
  prob_vec noise0 -> (forall q, prob_vec (noise q)) -> prob_vec pnoise0 -> (forall q, prob_vec (pnoise q)) ->
  (forall z, 0 < noise0 z) -> (forall q z, 0 < noise q z) -> (forall z, 0 < pnoise0 z) -> (forall q z, 0 < pnoise q z) ->
  mixing_resampler rs -> (0 < n')%N -> mixing_mover mv ->
  forgets_start (size qs) (fun key x0 xs b0 bs => drop_weights
    (atp_kernel noise0 ld0 noise ld scale0 scale pnoise0 pld0 pnoise pld mean0 mean prior0 prior r0 rt g0 gt rs mv key x0 xs b0 bs qs backward)).
Proof. by move=> *; apply: atp_forgets. Qed.
Print Assumptions C67_atp_forgets.

Theorem C67_t_atp_forgets (X : finZmodType) (n' : nat) (Q W : Type)
    (noise0 ld0 : X -> R) (noise ld : Q -> X -> R) (scale0 : X -> X) (scale : Q -> X -> X)
    (tparams : X -> seq X -> W * seq W) (law0 lpdf0 : W -> X -> R) (law lpdf : W -> X -> X -> R)
    (r0 : X -> R) (rt : X -> X -> Q -> R) (g0 : X -> X) (gt : X -> X -> Q -> X)
    (rs : resampler n'.+1) (mv : mover n'.+1) qs (backward : bool) :
  prob_vec noise0 -> (forall q, prob_vec (noise q)) -> (forall w, prob_vec (law0 w)) -> (forall w x, prob_vec (law w x)) ->
  (forall z, 0 < noise0 z) -> (forall q z, 0 < noise q z) -> (forall w z, 0 < law0 w z) -> (forall w x z, 0 < law w x z) ->
  mixing_resampler rs ->
  (forall u0 us, size us = size qs -> size (tparams u0 us).2 = size qs) ->
  (0 < n')%N -> mixing_mover mv ->
  forgets_start (size qs) (fun key x0 xs b0 bs => drop_weights
    (tw_kernel noise0 ld0 noise ld scale0 scale tparams law0 lpdf0 law lpdf r0 rt g0 gt rs mv key x0 xs b0 bs qs backward)).
Proof. by move=> *; apply: tw_forgets. Qed.
Print Assumptions C67_t_atp_forgets.

(** ** C68 *)
Theorem C68_tp (X : finZmodType) (n' : nat) (Q : Type)
    (noise0 : X -> R) (noise : Q -> X -> R) (scale0 : X -> X) (scale : Q -> X -> X)
    (pnoise0 : X -> R) (pnoise : Q -> X -> R) (mean0 : X -> X) (mean : Q -> X -> X -> X)
    (prior0 : X -> R) (prior : X -> X -> Q -> R) (r0 : X -> R) (rt : X -> X -> Q -> R)
    (g0 : X -> X) (gt : X -> X -> Q -> X)
    (logH0 : {ffun 'I_n'.+1 -> X} -> X -> 'I_n'.+1 -> R)
    (logH : Q -> {ffun 'I_n'.+1 -> X} -> {ffun 'I_n'.+1 -> X} -> X -> 'I_n'.+1 -> R)
    (rs : resampler n'.+1) (mv : mover n'.+1) qs (backward : bool) :
  prob_vec noise0 -> (forall q, prob_vec (noise q)) -> prob_vec pnoise0 -> (forall q, prob_vec (pnoise q)) ->
  (forall z, 0 < noise0 z) -> (forall q z, 0 < noise q z) -> (forall z, 0 < pnoise0 z) -> (forall q z, 0 < pnoise q z) ->
  mixing_resampler rs ->
  (forall (x : {ffun 'I_n'.+1 -> X}) (a b : 'I_n'.+1) phi, logH0 (moved a x) phi (b + a) = logH0 x phi b) ->
  (forall q (xm x : {ffun 'I_n'.+1 -> X}) (a b : 'I_n'.+1) phi,
     logH q (moved a xm) (moved a x) phi (b + a) = logH q xm x phi b) ->
  (0 < n')%N ->
  (exists S : {ffun 'I_n'.+1 -> X} -> R, forall (x : {ffun 'I_n'.+1 -> X}) b phi,
     \sum_u noise0 (u - (x b + phi)) * \prod_(i | i != b) pnoise0 (x i - mean0 u)
     = S x * exp (logH0 x phi b)) ->
  (forall q (xm : {ffun 'I_n'.+1 -> X}), exists S : {ffun 'I_n'.+1 -> X} -> R, forall (x : {ffun 'I_n'.+1 -> X}) b phi,
     \sum_u noise q (u - (x b + phi)) * \prod_(i | i != b) pnoise q (x i - mean q (xm i) u)
     = S x * exp (logH q xm x phi b)) ->
  mixing_mover mv -> good_mover mv ->
  settles (size qs) (path_target (fun x => prior0 x + r0 x) (fun x y q => prior x y q + rt x y q) qs)
    (fun key x0 xs b0 bs => drop_weights
       (tp_kernel noise0 noise scale0 scale pnoise0 pnoise mean0 mean prior0 prior r0 rt g0 gt logH0 logH rs mv key x0 xs b0 bs qs backward))
    (fun=> 0).
Proof. by move=> *; apply: tp_settles. Qed.
Print Assumptions C68_tp.

Theorem C68_tp_force (X : finZmodType) (n' : nat) (Q : Type)
    (noise0 : X -> R) (noise : Q -> X -> R) (scale0 : X -> X) (scale : Q -> X -> X)
    (pnoise0 : X -> R) (pnoise : Q -> X -> R) (mean0 : X -> X) (mean : Q -> X -> X -> X)
    (prior0 : X -> R) (prior : X -> X -> Q -> R) (r0 : X -> R) (rt : X -> X -> Q -> R)
    (g0 : X -> X) (gt : X -> X -> Q -> X)
    (logH0 : {ffun 'I_n'.+1 -> X} -> X -> 'I_n'.+1 -> R)
    (logH : Q -> {ffun 'I_n'.+1 -> X} -> {ffun 'I_n'.+1 -> X} -> X -> 'I_n'.+1 -> R)
    (rs : resampler n'.+1) qs (backward : bool) :
  prob_vec noise0 -> (forall q, prob_vec (noise q)) -> prob_vec pnoise0 -> (forall q, prob_vec (pnoise q)) ->
  (forall z, 0 < noise0 z) -> (forall q z, 0 < noise q z) -> (forall z, 0 < pnoise0 z) -> (forall q z, 0 < pnoise q z) ->
  mixing_resampler rs ->
  (forall (x : {ffun 'I_n'.+1 -> X}) (a b : 'I_n'.+1) phi, logH0 (moved a x) phi (b + a) = logH0 x phi b) ->
  (forall q (xm x : {ffun 'I_n'.+1 -> X}) (a b : 'I_n'.+1) phi,
     logH q (moved a xm) (moved a x) phi (b + a) = logH q xm x phi b) ->
  (0 < n')%N ->
  (exists S : {ffun 'I_n'.+1 -> X} -> R, forall (x : {ffun 'I_n'.+1 -> X}) b phi,
     \sum_u noise0 (u - (x b + phi)) * \prod_(i | i != b) pnoise0 (x i - mean0 u)
     = S x * exp (logH0 x phi b)) ->
  (forall q (xm : {ffun 'I_n'.+1 -> X}), exists S : {ffun 'I_n'.+1 -> X} -> R, forall (x : {ffun 'I_n'.+1 -> X}) b phi,
     \sum_u noise q (u - (x b + phi)) * \prod_(i | i != b) pnoise q (x i - mean q (xm i) u)
     = S x * exp (logH q xm x phi b)) ->
  settles (size qs) (path_target (fun x => prior0 x + r0 x) (fun x y q => prior x y q + rt x y q) qs)
    (fun key x0 xs b0 bs => drop_weights
       (tp_kernel noise0 noise scale0 scale pnoise0 pnoise mean0 mean prior0 prior r0 rt g0 gt logH0 logH rs (@force_move _) key x0 xs b0 bs qs backward))
    (force_eps n'.+1).
Proof. by move=> *; apply: tp_settles_force. Qed.
Print Assumptions C68_tp_force.

(** Non-vacuity: on every finite group, normalised laws and the correction they define ([ex_tp_hypotheses] in
    PropsTp.v has the other hypotheses). *)
Example ex_tp_settles_hypotheses (X : finZmodType) (n' : nat) (Q : Type) (ld pld : Q -> X -> R) (mean : Q -> X -> X -> X)
    q (xm x : {ffun 'I_n'.+1 -> X}) (a b : 'I_n'.+1) phi z :
  0 < ex_noise ld q z /\
  ex_tp_logH ld pld mean q (moved a xm) (moved a x) phi (b + a) = ex_tp_logH ld pld mean q xm x phi b.
Proof. by split; [exact: ex_noise_gt0|exact: ex_tp_logH_moved]. Qed.

(** ** C69 *)
(** The log-densities of the proposals that the weights subtract must be right up to a constant; for the code this
    is C25_density_partial (Q diagonal) and C45_target_partial (condition on the dynamics). *)
Theorem C69_atp_partial (X : finZmodType) (n' : nat) (Q : Type)
    (noise0 : X -> R) (noise : Q -> X -> R) (scale0 : X -> X) (scale : Q -> X -> X)
    (pnoise0 : X -> R) (pnoise : Q -> X -> R) (mean0 : X -> X) (mean : Q -> X -> X -> X)
    (prior0 : X -> R) (prior : X -> X -> Q -> R) (r0 : X -> R) (rt : X -> X -> Q -> R)
    (g0 : X -> X) (gt : X -> X -> Q -> X)
    (ld0 pld0 : X -> R) (ld pld : Q -> X -> R)
    (rs : resampler n'.+1) (mv : mover n'.+1) qs (backward : bool) :
  prob_vec noise0 -> (forall q, prob_vec (noise q)) -> prob_vec pnoise0 -> (forall q, prob_vec (pnoise q)) ->
  (forall z, 0 < noise0 z) -> (forall q z, 0 < noise q z) -> (forall z, 0 < pnoise0 z) -> (forall q z, 0 < pnoise q z) ->
  mixing_resampler rs -> (0 < n')%N ->
  (exists c, c != 0 /\ forall z, exp (ld0 z) = c * noise0 z) ->
  (forall q, exists c, c != 0 /\ forall z, exp (ld q z) = c * noise q z) ->
  (exists c, c != 0 /\ forall z, exp (pld0 z) = c * pnoise0 z) ->
  (forall q, exists c, c != 0 /\ forall z, exp (pld q z) = c * pnoise q z) ->
  mixing_mover mv -> good_mover mv ->
  settles (size qs) (path_target (fun x => prior0 x + r0 x) (fun x y q => prior x y q + rt x y q) qs)
    (fun key x0 xs b0 bs => drop_weights
       (atp_kernel noise0 ld0 noise ld scale0 scale pnoise0 pld0 pnoise pld mean0 mean prior0 prior r0 rt g0 gt rs mv key x0 xs b0 bs qs backward))
    (fun=> 0).
Proof. by move=> *; apply: atp_settles. Qed.
Print Assumptions C69_atp_partial.

Theorem C69_atp_force_partial (X : finZmodType) (n' : nat) (Q : Type)
    (noise0 : X -> R) (noise : Q -> X -> R) (scale0 : X -> X) (scale : Q -> X -> X)
    (pnoise0 : X -> R) (pnoise : Q -> X -> R) (mean0 : X -> X) (mean : Q -> X -> X -> X)
    (prior0 : X -> R) (prior : X -> X -> Q -> R) (r0 : X -> R) (rt : X -> X -> Q -> R)
    (g0 : X -> X) (gt : X -> X -> Q -> X)
    (ld0 pld0 : X -> R) (ld pld : Q -> X -> R)
    (rs : resampler n'.+1) qs (backward : bool) :
  prob_vec noise0 -> (forall q, prob_vec (noise q)) -> prob_vec pnoise0 -> (forall q, prob_vec (pnoise q)) ->
  (forall z, 0 < noise0 z) -> (forall q z, 0 < noise q z) -> (forall z, 0 < pnoise0 z) -> (forall q z, 0 < pnoise q z) ->
  mixing_resampler rs -> (0 < n')%N ->
  (exists c, c != 0 /\ forall z, exp (ld0 z) = c * noise0 z) ->
  (forall q, exists c, c != 0 /\ forall z, exp (ld q z) = c * noise q z) ->
  (exists c, c != 0 /\ forall z, exp (pld0 z) = c * pnoise0 z) ->
  (forall q, exists c, c != 0 /\ forall z, exp (pld q z) = c * pnoise q z) ->
  settles (size qs) (path_target (fun x => prior0 x + r0 x) (fun x y q => prior x y q + rt x y q) qs)
    (fun key x0 xs b0 bs => drop_weights
       (atp_kernel noise0 ld0 noise ld scale0 scale pnoise0 pld0 pnoise pld mean0 mean prior0 prior r0 rt g0 gt rs (@force_move _) key x0 xs b0 bs qs backward))
    (force_eps n'.+1).
Proof. by move=> *; apply: atp_settles_force. Qed.
Print Assumptions C69_atp_force_partial.

Theorem C69_t_atp_partial (X : finZmodType) (n' : nat) (Q W : Type)
    (noise0 ld0 : X -> R) (noise ld : Q -> X -> R) (scale0 : X -> X) (scale : Q -> X -> X)
    (tparams : X -> seq X -> W * seq W) (law0 lpdf0 : W -> X -> R) (law lpdf : W -> X -> X -> R)
    (r0 : X -> R) (rt : X -> X -> Q -> R) (g0 : X -> X) (gt : X -> X -> Q -> X)
    (prior0 : X -> R) (prior : X -> X -> Q -> R) (rs : resampler n'.+1) (mv : mover n'.+1) qs (backward : bool) :
  prob_vec noise0 -> (forall q, prob_vec (noise q)) -> (forall w, prob_vec (law0 w)) -> (forall w x, prob_vec (law w x)) ->
  (forall z, 0 < noise0 z) -> (forall q z, 0 < noise q z) -> (forall w z, 0 < law0 w z) -> (forall w x z, 0 < law w x z) ->
  mixing_resampler rs -> (0 < n')%N ->
  (exists c, c != 0 /\ forall z, exp (ld0 z) = c * noise0 z) ->
  (forall q, exists c, c != 0 /\ forall z, exp (ld q z) = c * noise q z) ->
  (forall w, exists c, c != 0 /\ forall z, exp (lpdf0 w z) = c * law0 w z) ->
  (forall w, exists c, c != 0 /\ forall x z, exp (lpdf w x z) = c * law w x z) ->
  (forall u0 us, size us = size qs -> let: (w0, ws) := tparams u0 us in
    size ws = size qs /\ exists k, forall x0 xs, size xs = size qs ->
      lpdf0 w0 x0 + log_path (fun x y w => lpdf w x y) x0 xs ws
      = k + (prior0 x0 + log_path prior x0 xs qs)
        + (ld0 (u0 - x0) + log_path (fun _ y uq => ld uq.2 (uq.1 - y)) x0 xs (zip us qs))) ->
  mixing_mover mv -> good_mover mv ->
  settles (size qs) (path_target (fun x => prior0 x + r0 x) (fun x y q => prior x y q + rt x y q) qs)
    (fun key x0 xs b0 bs => drop_weights
       (tw_kernel noise0 ld0 noise ld scale0 scale tparams law0 lpdf0 law lpdf r0 rt g0 gt rs mv key x0 xs b0 bs qs backward))
    (fun=> 0).
Proof. by move=> *; apply: tw_converges. Qed.
Print Assumptions C69_t_atp_partial.

Theorem C69_t_atp_force_partial (X : finZmodType) (n' : nat) (Q W : Type)
    (noise0 ld0 : X -> R) (noise ld : Q -> X -> R) (scale0 : X -> X) (scale : Q -> X -> X)
    (tparams : X -> seq X -> W * seq W) (law0 lpdf0 : W -> X -> R) (law lpdf : W -> X -> X -> R)
    (r0 : X -> R) (rt : X -> X -> Q -> R) (g0 : X -> X) (gt : X -> X -> Q -> X)
    (prior0 : X -> R) (prior : X -> X -> Q -> R) (rs : resampler n'.+1) qs (backward : bool) :
  prob_vec noise0 -> (forall q, prob_vec (noise q)) -> (forall w, prob_vec (law0 w)) -> (forall w x, prob_vec (law w x)) ->
  (forall z, 0 < noise0 z) -> (forall q z, 0 < noise q z) -> (forall w z, 0 < law0 w z) -> (forall w x z, 0 < law w x z) ->
  mixing_resampler rs -> (0 < n')%N ->
  (exists c, c != 0 /\ forall z, exp (ld0 z) = c * noise0 z) ->
  (forall q, exists c, c != 0 /\ forall z, exp (ld q z) = c * noise q z) ->
  (forall w, exists c, c != 0 /\ forall z, exp (lpdf0 w z) = c * law0 w z) ->
  (forall w, exists c, c != 0 /\ forall x z, exp (lpdf w x z) = c * law w x z) ->
  (forall u0 us, size us = size qs -> let: (w0, ws) := tparams u0 us in
    size ws = size qs /\ exists k, forall x0 xs, size xs = size qs ->
      lpdf0 w0 x0 + log_path (fun x y w => lpdf w x y) x0 xs ws
      = k + (prior0 x0 + log_path prior x0 xs qs)
        + (ld0 (u0 - x0) + log_path (fun _ y uq => ld uq.2 (uq.1 - y)) x0 xs (zip us qs))) ->
  settles (size qs) (path_target (fun x => prior0 x + r0 x) (fun x y q => prior x y q + rt x y q) qs)
    (fun key x0 xs b0 bs => drop_weights
       (tw_kernel noise0 ld0 noise ld scale0 scale tparams law0 lpdf0 law lpdf r0 rt g0 gt rs (@force_move _) key x0 xs b0 bs qs backward))
    (force_eps n'.+1).
Proof. by move=> *; apply: tw_converges_force. Qed.
Print Assumptions C69_t_atp_force_partial.

(** The full statement, without the hypothesis on [pld0] and [pld], fails. *)
Theorem C69_density_refuted :
  ~ forall (X : finZmodType) (n' : nat) (Q : Type)
    (noise0 : X -> R) (noise : Q -> X -> R) (scale0 : X -> X) (scale : Q -> X -> X)
    (pnoise0 : X -> R) (pnoise : Q -> X -> R) (mean0 : X -> X) (mean : Q -> X -> X -> X)
    (prior0 : X -> R) (prior : X -> X -> Q -> R) (r0 : X -> R) (rt : X -> X -> Q -> R)
    (g0 : X -> X) (gt : X -> X -> Q -> X)
    (ld0 pld0 : X -> R) (ld pld : Q -> X -> R)
    (rs : resampler n'.+1) (mv : mover n'.+1) qs (backward : bool),
  prob_vec noise0 -> (forall q, prob_vec (noise q)) -> prob_vec pnoise0 -> (forall q, prob_vec (pnoise q)) ->
  (forall z, 0 < noise0 z) -> (forall q z, 0 < noise q z) -> (forall z, 0 < pnoise0 z) -> (forall q z, 0 < pnoise q z) ->
  mixing_resampler rs -> (0 < n')%N ->
  (exists c, c != 0 /\ forall z, exp (ld0 z) = c * noise0 z) ->
  (forall q, exists c, c != 0 /\ forall z, exp (ld q z) = c * noise q z) ->
  mixing_mover mv -> good_mover mv ->
  settles (size qs) (path_target (fun x => prior0 x + r0 x) (fun x y q => prior x y q + rt x y q) qs)
    (fun key x0 xs b0 bs => drop_weights
       (atp_kernel noise0 ld0 noise ld scale0 scale pnoise0 pld0 pnoise pld mean0 mean prior0 prior r0 rt g0 gt rs mv key x0 xs b0 bs qs backward))
    (fun=> 0).
Proof. exact: wrong_density. Qed.
Print Assumptions C69_density_refuted.
