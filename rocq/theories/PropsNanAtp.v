(** * Property theorems C93 and C94: csmc.py, atp_csmc_f.py and tp_csmc.py on targets with zeros, whatever numbers
    their proposal log-densities are.  Statements only; the proofs are in the NanSafe, NanAtp*, NanTp* and NanLater files.

    [xkernel] is csmc.py with log-potentials that may be [-inf], [xatp_kernel] atp_csmc_f.py and [xtp_kernel]
    tp_csmc.py; [r0], [rt] are the logarithms of [R0], [Rt], which may vanish, the priors are densities [exp prior];
    a run that needs weights that are not finite has no result ([None]).  [ld], [pld] (atp) and [logH] (tp) are
    arbitrary real functions: the theorems on results hold for the code's densities whether these are right or
    not (C25_density_refuted). *)
From Coq Require Import Reals.
From mathcomp Require Import all_ssreflect all_algebra.
From Verif Require Import RInst Prog ProgTheory Resampling Spec Csmc CsmcInvariance AuxCsmc AuxFinal TpCsmc.
From Verif Require Import NanCsmc NanSpec NanAtp NanAtpProofs NanAtpFinal NanAtpSafe NanTpProofs NanLater.

Set Implicit Arguments.
Unset Strict Implicit.
Unset Printing Implicit Defensive.
Import GRing.Theory Num.Theory Order.TTheory.
Local Open Scope ring_scope.

(** csmc.py with any samplers, and any real numbers in the place of their log-densities: from every reference where
    the target is positive, both backward passes have a result where the target is positive. *)
Theorem C93_any_proposal (X : Type) (n' : nat) (P Q : Type) (md : xmodel X n' P Q) (G0 : X -> R) (Gt : X -> X -> Q -> R)
    (rs : resampler n'.+1) (mv : mover n'.+1) (key : key) x0 xs b0 bs ps qs (backward : bool) :
  (forall x i, exists r, xM0_logpdf md x i = Fin r) -> (forall xm xt p i, exists r, xMt_logpdf md xm xt p i = Fin r) ->
  (forall x, log_of (xGamma0 md x) (G0 x)) -> (forall x y q, log_of (xGammat md x y q) (Gt x y q)) ->
  good_resampler rs -> good_mover mv -> proper_mover mv ->
  size ps = size qs -> size xs = size qs -> size bs = size qs -> 0 < pot_target G0 Gt qs x0 xs ->
  Pr (odrop (xkernel rs mv md key x0 xs b0 bs ps qs backward true))
     (fun o => if o is Some (y0 :: ys, _) then pot_target G0 Gt qs y0 ys == 0 else true) = 0.
Proof. by move=> m0 mt l0 lt rg mg mp; exact: csmc_result_num. Qed.
Print Assumptions C93_any_proposal.

(** atp_csmc_f.py, when the gradients are defined at all states. *)
Theorem C93_atp_has_result (X : finZmodType) (n' : nat) (Q : Type)
    (noise0 : X -> R) (noise : Q -> X -> R) (scale0 : X -> X) (scale : Q -> X -> X)
    (pnoise0 : X -> R) (pnoise : Q -> X -> R) (mean0 : X -> X) (mean : Q -> X -> X -> X)
    (prior0 : X -> R) (prior : X -> X -> Q -> R)
    (r0 : X -> xnum) (rt : X -> X -> Q -> xnum) (R0 : X -> R) (Rt : X -> X -> Q -> R)
    (g0 : X -> X) (gt : X -> X -> Q -> X)
    (ld0 pld0 : X -> R) (ld pld : Q -> X -> R)
    (rs : resampler n'.+1) (mv : mover n'.+1) (key : key) qs (backward : bool) x0 xs b0 bs :
  (forall x, log_of (r0 x) (R0 x)) -> (forall x y q, log_of (rt x y q) (Rt x y q)) ->
  good_resampler rs -> good_mover mv -> proper_mover mv -> size xs = size qs -> size bs = size qs ->
  0 < pot_target (fun x => exp (prior0 x) * R0 x) (fun x y q => exp (prior x y q) * Rt x y q) qs x0 xs ->
  Pr (odrop (xatp_kernel noise0 ld0 noise ld scale0 scale pnoise0 pld0 pnoise pld mean0 mean prior0 prior r0 rt
        (fun x => Some (g0 x)) (fun x y q => Some (gt x y q)) rs mv key x0 xs b0 bs qs backward))
     (fun o => if o is Some (y0 :: ys, _)
               then pot_target (fun x => exp (prior0 x) * R0 x) (fun x y q => exp (prior x y q) * Rt x y q) qs y0 ys == 0
               else true) = 0.
Proof. by move=> l0 lt rg mg mp s2 s3 pos; exact: atp_safe. Qed.
Print Assumptions C93_atp_has_result.

(** So do all iterations. *)
Theorem C93_atp_iterations (X : finZmodType) (n' : nat) (Q : Type)
    (noise0 : X -> R) (noise : Q -> X -> R) (scale0 : X -> X) (scale : Q -> X -> X)
    (pnoise0 : X -> R) (pnoise : Q -> X -> R) (mean0 : X -> X) (mean : Q -> X -> X -> X)
    (prior0 : X -> R) (prior : X -> X -> Q -> R)
    (r0 : X -> xnum) (rt : X -> X -> Q -> xnum) (R0 : X -> R) (Rt : X -> X -> Q -> R)
    (g0 : X -> X) (gt : X -> X -> Q -> X)
    (ld0 pld0 : X -> R) (ld pld : Q -> X -> R)
    (rs : resampler n'.+1) (mv : mover n'.+1) (keys : seq key) qs (backward : bool) x0 xs b0 bs :
  (forall x, log_of (r0 x) (R0 x)) -> (forall x y q, log_of (rt x y q) (Rt x y q)) ->
  good_resampler rs -> good_mover mv -> proper_mover mv -> size xs = size qs -> size bs = size qs ->
  0 < pot_target (fun x => exp (prior0 x) * R0 x) (fun x y q => exp (prior x y q) * Rt x y q) qs x0 xs ->
  Pr (xatp_runs noise0 ld0 noise ld scale0 scale pnoise0 pld0 pnoise pld mean0 mean prior0 prior r0 rt
        (fun x => Some (g0 x)) (fun x y q => Some (gt x y q)) rs mv qs backward keys (x0 :: xs, b0 :: bs))
     (fun o => ~~ isSome o) = 0.
Proof. by move=> l0 lt rg mg mp s2 s3 pos; eapply atp_runs_safe; eassumption. Qed.
Print Assumptions C93_atp_iterations.

(** But one state [y] where the gradient of [r0] is undefined, even of density zero, is enough for a positive
    probability of no result, from every reference, as soon as there are two particles. *)
Theorem C93_atp_undefined_gradient (X : finZmodType) (n' : nat) (Q : Type)
    (noise0 : X -> R) (noise : Q -> X -> R) (scale0 : X -> X) (scale : Q -> X -> X)
    (pnoise0 : X -> R) (pnoise : Q -> X -> R) (mean0 : X -> X) (mean : Q -> X -> X -> X)
    (prior0 : X -> R) (prior : X -> X -> Q -> R)
    (r0 : X -> xnum) (rt : X -> X -> Q -> xnum) (g0 : X -> option X) (gt : X -> X -> Q -> option X)
    (ld0 pld0 : X -> R) (ld pld : Q -> X -> R)
    (rs : resampler n'.+1) (mv : mover n'.+1) (key : key) qs (backward : bool) x0 xs b0 bs y i :
  prob_vec pnoise0 -> (forall q, prob_vec (pnoise q)) ->
  (forall z, 0 < noise0 z) -> (forall q z, 0 < noise q z) -> (forall z, 0 < pnoise0 z) ->
  good_resampler rs -> proper_mover mv -> i != b0 -> g0 y = None ->
  0 < Pr (xatp_kernel noise0 ld0 noise ld scale0 scale pnoise0 pld0 pnoise pld mean0 mean prior0 prior r0 rt
        g0 gt rs mv key x0 xs b0 bs qs backward)
         (fun o => ~~ isSome o).
Proof. by move=> p0 pt n0 nt q0 rg mp ib gy; eapply atp_undefined; eassumption. Qed.
Print Assumptions C93_atp_undefined_gradient.

(** The same when the gradient of [rt] at [y] is undefined from all previous states, at any later time. *)
Theorem C93_atp_undefined_gradient_later (X : finZmodType) (n' : nat) (Q : Type)
    (noise0 : X -> R) (noise : Q -> X -> R) (scale0 : X -> X) (scale : Q -> X -> X)
    (pnoise0 : X -> R) (pnoise : Q -> X -> R) (mean0 : X -> X) (mean : Q -> X -> X -> X)
    (prior0 : X -> R) (prior : X -> X -> Q -> R)
    (r0 : X -> xnum) (rt : X -> X -> Q -> xnum) (g0 : X -> option X) (gt : X -> X -> Q -> option X)
    (ld0 pld0 : X -> R) (ld pld : Q -> X -> R)
    (rs : resampler n'.+1) (mv : mover n'.+1) (key : key) qs (backward : bool) x0 xs b0 bs y q :
  prob_vec pnoise0 -> (forall q, prob_vec (pnoise q)) ->
  (forall z, 0 < noise0 z) -> (forall q z, 0 < noise q z) -> (forall q z, 0 < pnoise q z) ->
  good_resampler rs -> proper_mover mv -> (0 < n')%N ->
  size xs = size qs -> size bs = size qs -> List.In q qs -> (forall x, gt x y q = None) ->
  0 < Pr (xatp_kernel noise0 ld0 noise ld scale0 scale pnoise0 pld0 pnoise pld mean0 mean prior0 prior r0 rt
        g0 gt rs mv key x0 xs b0 bs qs backward)
         (fun o => ~~ isSome o).
Proof. by move=> p0 pt n0 nt q0 rg mp two s2 s3 iq gy; eapply atp_later; eassumption. Qed.
Print Assumptions C93_atp_undefined_gradient_later.

(** When all potentials are positive and all gradients defined, this is the model of TpCsmc.v. *)
Theorem C93_atp_agrees (X : finZmodType) (n' : nat) (Q : Type)
    (noise0 : X -> R) (noise : Q -> X -> R) (scale0 : X -> X) (scale : Q -> X -> X)
    (pnoise0 : X -> R) (pnoise : Q -> X -> R) (mean0 : X -> X) (mean : Q -> X -> X -> X)
    (prior0 : X -> R) (prior : X -> X -> Q -> R)
    (r0 : X -> R) (rt : X -> X -> Q -> R) (g0 : X -> X) (gt : X -> X -> Q -> X)
    (ld0 pld0 : X -> R) (ld pld : Q -> X -> R)
    (rs : resampler n'.+1) (mv : mover n'.+1) (key : key) x0 xs b0 bs qs (backward : bool) f :
  E (xatp_kernel noise0 ld0 noise ld scale0 scale pnoise0 pld0 pnoise pld mean0 mean prior0 prior (fun x => Fin (r0 x)) (fun x y q => Fin (rt x y q))
        (fun x => Some (g0 x)) (fun x y q => Some (gt x y q)) rs mv key x0 xs b0 bs qs backward) f
  = E (atp_kernel noise0 ld0 noise ld scale0 scale pnoise0 pld0 pnoise pld mean0 mean prior0 prior r0 rt
        g0 gt rs mv key x0 xs b0 bs qs backward)
      (fun r => f (Some (r.1, [seq (fun i => Fin (lw i)) | lw <- r.2]))).
Proof. exact: atp_agrees. Qed.
Print Assumptions C93_atp_agrees.

(** tp_csmc.py, when the gradients are defined at all states. *)
Theorem C93_tp_has_result (X : finZmodType) (n' : nat) (Q : Type)
    (noise0 : X -> R) (noise : Q -> X -> R) (scale0 : X -> X) (scale : Q -> X -> X)
    (pnoise0 : X -> R) (pnoise : Q -> X -> R) (mean0 : X -> X) (mean : Q -> X -> X -> X)
    (prior0 : X -> R) (prior : X -> X -> Q -> R)
    (r0 : X -> xnum) (rt : X -> X -> Q -> xnum) (R0 : X -> R) (Rt : X -> X -> Q -> R)
    (g0 : X -> X) (gt : X -> X -> Q -> X)
    (logH0 : {ffun 'I_n'.+1 -> X} -> X -> 'I_n'.+1 -> R)
    (logH : Q -> {ffun 'I_n'.+1 -> X} -> {ffun 'I_n'.+1 -> X} -> X -> 'I_n'.+1 -> R)
    (rs : resampler n'.+1) (mv : mover n'.+1) (key : key) qs (backward : bool) x0 xs b0 bs :
  (forall x, log_of (r0 x) (R0 x)) -> (forall x y q, log_of (rt x y q) (Rt x y q)) ->
  good_resampler rs -> good_mover mv -> proper_mover mv -> size xs = size qs -> size bs = size qs ->
  0 < pot_target (fun x => exp (prior0 x) * R0 x) (fun x y q => exp (prior x y q) * Rt x y q) qs x0 xs ->
  Pr (odrop (xtp_kernel noise0 noise scale0 scale pnoise0 pnoise mean0 mean prior0 prior r0 rt
        (fun x => Some (g0 x)) (fun x y q => Some (gt x y q)) logH0 logH rs mv key x0 xs b0 bs qs backward))
     (fun o => if o is Some (y0 :: ys, _)
               then pot_target (fun x => exp (prior0 x) * R0 x) (fun x y q => exp (prior x y q) * Rt x y q) qs y0 ys == 0
               else true) = 0.
Proof. by move=> l0 lt rg mg mp s2 s3 pos; exact: tp_safe. Qed.
Print Assumptions C93_tp_has_result.

(** So do all iterations. *)
Theorem C93_tp_iterations (X : finZmodType) (n' : nat) (Q : Type)
    (noise0 : X -> R) (noise : Q -> X -> R) (scale0 : X -> X) (scale : Q -> X -> X)
    (pnoise0 : X -> R) (pnoise : Q -> X -> R) (mean0 : X -> X) (mean : Q -> X -> X -> X)
    (prior0 : X -> R) (prior : X -> X -> Q -> R)
    (r0 : X -> xnum) (rt : X -> X -> Q -> xnum) (R0 : X -> R) (Rt : X -> X -> Q -> R)
    (g0 : X -> X) (gt : X -> X -> Q -> X)
    (logH0 : {ffun 'I_n'.+1 -> X} -> X -> 'I_n'.+1 -> R)
    (logH : Q -> {ffun 'I_n'.+1 -> X} -> {ffun 'I_n'.+1 -> X} -> X -> 'I_n'.+1 -> R)
    (rs : resampler n'.+1) (mv : mover n'.+1) (keys : seq key) qs (backward : bool) x0 xs b0 bs :
  (forall x, log_of (r0 x) (R0 x)) -> (forall x y q, log_of (rt x y q) (Rt x y q)) ->
  good_resampler rs -> good_mover mv -> proper_mover mv -> size xs = size qs -> size bs = size qs ->
  0 < pot_target (fun x => exp (prior0 x) * R0 x) (fun x y q => exp (prior x y q) * Rt x y q) qs x0 xs ->
  Pr (xtp_runs noise0 noise scale0 scale pnoise0 pnoise mean0 mean prior0 prior r0 rt
        (fun x => Some (g0 x)) (fun x y q => Some (gt x y q)) logH0 logH rs mv qs backward keys (x0 :: xs, b0 :: bs))
     (fun o => ~~ isSome o) = 0.
Proof. by move=> l0 lt rg mg mp s2 s3 pos; eapply tp_runs_safe; eassumption. Qed.
Print Assumptions C93_tp_iterations.

(** But one state [y] where the gradient of [r0] is undefined, even of density zero, is enough for a positive
    probability of no result, from every reference, as soon as there are two particles. *)
Theorem C93_tp_undefined_gradient (X : finZmodType) (n' : nat) (Q : Type)
    (noise0 : X -> R) (noise : Q -> X -> R) (scale0 : X -> X) (scale : Q -> X -> X)
    (pnoise0 : X -> R) (pnoise : Q -> X -> R) (mean0 : X -> X) (mean : Q -> X -> X -> X)
    (prior0 : X -> R) (prior : X -> X -> Q -> R)
    (r0 : X -> xnum) (rt : X -> X -> Q -> xnum) (g0 : X -> option X) (gt : X -> X -> Q -> option X)
    (logH0 : {ffun 'I_n'.+1 -> X} -> X -> 'I_n'.+1 -> R)
    (logH : Q -> {ffun 'I_n'.+1 -> X} -> {ffun 'I_n'.+1 -> X} -> X -> 'I_n'.+1 -> R)
    (rs : resampler n'.+1) (mv : mover n'.+1) (key : key) qs (backward : bool) x0 xs b0 bs y i :
  prob_vec pnoise0 -> (forall q, prob_vec (pnoise q)) ->
  (forall z, 0 < noise0 z) -> (forall q z, 0 < noise q z) -> (forall z, 0 < pnoise0 z) ->
  good_resampler rs -> proper_mover mv -> i != b0 -> g0 y = None ->
  0 < Pr (xtp_kernel noise0 noise scale0 scale pnoise0 pnoise mean0 mean prior0 prior r0 rt
        g0 gt logH0 logH rs mv key x0 xs b0 bs qs backward)
         (fun o => ~~ isSome o).
Proof. by move=> p0 pt n0 nt q0 rg mp ib gy; eapply tp_undefined; eassumption. Qed.
Print Assumptions C93_tp_undefined_gradient.

(** The same when the gradient of [rt] at [y] is undefined from all previous states, at any later time. *)
Theorem C93_tp_undefined_gradient_later (X : finZmodType) (n' : nat) (Q : Type)
    (noise0 : X -> R) (noise : Q -> X -> R) (scale0 : X -> X) (scale : Q -> X -> X)
    (pnoise0 : X -> R) (pnoise : Q -> X -> R) (mean0 : X -> X) (mean : Q -> X -> X -> X)
    (prior0 : X -> R) (prior : X -> X -> Q -> R)
    (r0 : X -> xnum) (rt : X -> X -> Q -> xnum) (g0 : X -> option X) (gt : X -> X -> Q -> option X)
    (logH0 : {ffun 'I_n'.+1 -> X} -> X -> 'I_n'.+1 -> R)
    (logH : Q -> {ffun 'I_n'.+1 -> X} -> {ffun 'I_n'.+1 -> X} -> X -> 'I_n'.+1 -> R)
    (rs : resampler n'.+1) (mv : mover n'.+1) (key : key) qs (backward : bool) x0 xs b0 bs y q :
  prob_vec pnoise0 -> (forall q, prob_vec (pnoise q)) ->
  (forall z, 0 < noise0 z) -> (forall q z, 0 < noise q z) -> (forall q z, 0 < pnoise q z) ->
  good_resampler rs -> proper_mover mv -> (0 < n')%N ->
  size xs = size qs -> size bs = size qs -> List.In q qs -> (forall x, gt x y q = None) ->
  0 < Pr (xtp_kernel noise0 noise scale0 scale pnoise0 pnoise mean0 mean prior0 prior r0 rt
        g0 gt logH0 logH rs mv key x0 xs b0 bs qs backward)
         (fun o => ~~ isSome o).
Proof. by move=> p0 pt n0 nt q0 rg mp two s2 s3 iq gy; eapply tp_later; eassumption. Qed.
Print Assumptions C93_tp_undefined_gradient_later.

(** When all potentials are positive and all gradients defined, this is the model of TpCsmc.v. *)
Theorem C93_tp_agrees (X : finZmodType) (n' : nat) (Q : Type)
    (noise0 : X -> R) (noise : Q -> X -> R) (scale0 : X -> X) (scale : Q -> X -> X)
    (pnoise0 : X -> R) (pnoise : Q -> X -> R) (mean0 : X -> X) (mean : Q -> X -> X -> X)
    (prior0 : X -> R) (prior : X -> X -> Q -> R)
    (r0 : X -> R) (rt : X -> X -> Q -> R) (g0 : X -> X) (gt : X -> X -> Q -> X)
    (logH0 : {ffun 'I_n'.+1 -> X} -> X -> 'I_n'.+1 -> R)
    (logH : Q -> {ffun 'I_n'.+1 -> X} -> {ffun 'I_n'.+1 -> X} -> X -> 'I_n'.+1 -> R)
    (rs : resampler n'.+1) (mv : mover n'.+1) (key : key) x0 xs b0 bs qs (backward : bool) f :
  E (xtp_kernel noise0 noise scale0 scale pnoise0 pnoise mean0 mean prior0 prior (fun x => Fin (r0 x)) (fun x y q => Fin (rt x y q))
        (fun x => Some (g0 x)) (fun x y q => Some (gt x y q)) logH0 logH rs mv key x0 xs b0 bs qs backward) f
  = E (tp_kernel noise0 noise scale0 scale pnoise0 pnoise mean0 mean prior0 prior r0 rt
        g0 gt logH0 logH rs mv key x0 xs b0 bs qs backward)
      (fun r => f (Some (r.1, [seq (fun i => Fin (lw i)) | lw <- r.2]))).
Proof. exact: tp_agrees. Qed.
Print Assumptions C93_tp_agrees.

(** ** C94 *)
(** Started from the target, tp_csmc.py has a result almost surely, distributed as the target.  The correction is the
    density of the other particles given one particle, up to a factor that is the same for all particles;
    C43_correction proves this of the Gaussian formula, ex_tp_hypotheses of PropsTp.v that such functions exist. *)
Theorem C94_tp_invariant (X : finZmodType) (n' : nat) (Q : Type)
    (noise0 : X -> R) (noise : Q -> X -> R) (scale0 : X -> X) (scale : Q -> X -> X)
    (pnoise0 : X -> R) (pnoise : Q -> X -> R) (mean0 : X -> X) (mean : Q -> X -> X -> X)
    (prior0 : X -> R) (prior : X -> X -> Q -> R)
    (r0 : X -> xnum) (rt : X -> X -> Q -> xnum) (R0 : X -> R) (Rt : X -> X -> Q -> R)
    (g0 : X -> X) (gt : X -> X -> Q -> X)
    (logH0 : {ffun 'I_n'.+1 -> X} -> X -> 'I_n'.+1 -> R)
    (logH : Q -> {ffun 'I_n'.+1 -> X} -> {ffun 'I_n'.+1 -> X} -> X -> 'I_n'.+1 -> R)
    (rs : resampler n'.+1) (mv : mover n'.+1) (key : key) qs (backward : bool) :
  prob_vec noise0 -> (forall q, prob_vec (noise q)) -> prob_vec pnoise0 -> (forall q, prob_vec (pnoise q)) ->
  (exists S : {ffun 'I_n'.+1 -> X} -> R, forall (x : {ffun 'I_n'.+1 -> X}) b phi,
     \sum_u noise0 (u - (x b + phi)) * \prod_(i | i != b) pnoise0 (x i - mean0 u)
     = S x * exp (logH0 x phi b)) ->
  (forall q (xm : {ffun 'I_n'.+1 -> X}), exists S : {ffun 'I_n'.+1 -> X} -> R, forall (x : {ffun 'I_n'.+1 -> X}) b phi,
     \sum_u noise q (u - (x b + phi)) * \prod_(i | i != b) pnoise q (x i - mean q (xm i) u)
     = S x * exp (logH q xm x phi b)) ->
  (forall x, log_of (r0 x) (R0 x)) -> (forall x y q, log_of (rt x y q) (Rt x y q)) ->
  good_resampler rs -> good_mover mv ->
  leaves_invariant_result (size qs) (pot_target (fun x => exp (prior0 x) * R0 x) (fun x y q => exp (prior x y q) * Rt x y q) qs)
    (fun x0 xs b0 bs => odrop (xtp_kernel noise0 noise scale0 scale pnoise0 pnoise mean0 mean prior0 prior r0 rt
        (fun x => Some (g0 x)) (fun x y q => Some (gt x y q)) logH0 logH rs mv key x0 xs b0 bs qs backward)).
Proof. by move=> n0 nt p0 pt h0 ht l0 lt rg mg; eapply tp_zeros_invariant; eassumption. Qed.
Print Assumptions C94_tp_invariant.

(** Started from the target, atp_csmc_f.py has a result almost surely, distributed as the target, when [ld] and [pld]
    are the logarithms of the densities of the two noises up to constants.  Missing: this fails for the [pld] of the
    code unless Q = diag(G) (C25_density_refuted, C25_density_partial). *)
Theorem C94_atp_invariant_partial (X : finZmodType) (n' : nat) (Q : Type)
    (noise0 : X -> R) (noise : Q -> X -> R) (scale0 : X -> X) (scale : Q -> X -> X)
    (pnoise0 : X -> R) (pnoise : Q -> X -> R) (mean0 : X -> X) (mean : Q -> X -> X -> X)
    (prior0 : X -> R) (prior : X -> X -> Q -> R)
    (r0 : X -> xnum) (rt : X -> X -> Q -> xnum) (R0 : X -> R) (Rt : X -> X -> Q -> R)
    (g0 : X -> X) (gt : X -> X -> Q -> X)
    (ld0 pld0 : X -> R) (ld pld : Q -> X -> R) (k0 p0 : R) (kn kp : Q -> R)
    (rs : resampler n'.+1) (mv : mover n'.+1) (key : key) qs (backward : bool) :
  prob_vec noise0 -> (forall q, prob_vec (noise q)) -> prob_vec pnoise0 -> (forall q, prob_vec (pnoise q)) ->
  (forall z, exp (ld0 z) = k0 * noise0 z) -> (forall q z, exp (ld q z) = kn q * noise q z) ->
  (forall z, exp (pld0 z) = p0 * pnoise0 z) -> (forall q z, exp (pld q z) = kp q * pnoise q z) ->
  (forall x, log_of (r0 x) (R0 x)) -> (forall x y q, log_of (rt x y q) (Rt x y q)) ->
  good_resampler rs -> good_mover mv ->
  leaves_invariant_result (size qs) (pot_target (fun x => exp (prior0 x) * R0 x) (fun x y q => exp (prior x y q) * Rt x y q) qs)
    (fun x0 xs b0 bs => odrop (xatp_kernel noise0 ld0 noise ld scale0 scale pnoise0 pld0 pnoise pld mean0 mean prior0 prior r0 rt
        (fun x => Some (g0 x)) (fun x y q => Some (gt x y q)) rs mv key x0 xs b0 bs qs backward)).
Proof. by move=> n0 nt p0' pt e0 et f0 ft l0 lt rg mg; eapply atp_invariant; eassumption. Qed.
Print Assumptions C94_atp_invariant_partial.

(** The hypotheses are met, on every finite group: noise [exp (ld q z)] normalised, and potentials that vanish on all
    transitions between distinct states. *)
Example C93_hypotheses_met (X : finZmodType) (Q : Type) (ld : Q -> X -> R) (prior0 : X -> R) (prior : X -> X -> Q -> R) :
  let R0 := fun x : X => (x == 0)%:R : R in
  let Rt := fun (x y : X) (_ : Q) => (x == y)%:R : R in
  let r0 := fun x => if x == 0 then Fin 0 else NInf in
  let rt := fun (x y : X) (_ : Q) => if x == y then Fin 0 else NInf in
  [/\ forall q, prob_vec (ex_noise ld q), forall q z, 0 < ex_noise ld q z,
      forall q z, exp (ld q z) = (\sum_z exp (ld q z)) * ex_noise ld q z,
      (forall x, log_of (r0 x) (R0 x)) /\ (forall x y q, log_of (rt x y q) (Rt x y q))
    & forall qs, 0 < pot_target (fun x => exp (prior0 x) * R0 x) (fun x y q => exp (prior x y q) * Rt x y q) qs 0 (nseq (size qs) 0)].
Proof. exact: atp_zeros_met. Qed.

(** Those of the theorems ending in [_undefined_gradient_later] as well: a gradient that is defined at the
    state 0 only. *)
Example C93_later_hypotheses_met (X : finZmodType) (y : X) (T : nat) : y != 0 ->
  let gt := fun (_ z : X) (_ : unit) => if z == 0 then Some z else None in
  [/\ List.In tt (nseq T.+1 tt), size (nseq T.+1 y) = size (nseq T.+1 tt), forall x, gt x y tt = None
    & forall x, gt x 0 tt = Some 0].
Proof. by move=> y0 gt; split; rewrite ?size_nseq //= ?eqxx; [left|rewrite /gt (negbTE y0)|rewrite /gt eqxx]. Qed.
