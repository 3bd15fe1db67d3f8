(** * Property theorems C92: l_csmc_f.py on targets with zeros.
    Statements only; the proofs are in the NanL* files.

    [xl_kernel] is l_csmc_f.py with log-potentials that may be [-inf] and gradients that may be undefined
    ([None]); a run that needs weights that are not finite has no result ([None]).  [L0], [Lt] return the
    logarithms of the potentials [G0], [Gt], which may vanish.  [noise s] is the law of the Gaussian noise at
    setting [s]; [logH] is the logarithm of the density of the other particles given the reference, up to a term
    common to all particles, as in C29. *)
From Coq Require Import Reals.
From mathcomp Require Import all_ssreflect all_algebra.
From Verif Require Import RInst Prog ProgTheory Resampling Spec Csmc CsmcInvariance AuxCsmc AuxFinal.
From Verif Require Import NanCsmc NanSpec NanL NanLProofs NanLFinal NanLaterAux.

Set Implicit Arguments.
Unset Strict Implicit.
Unset Printing Implicit Defensive.
Import GRing.Theory Num.Theory Order.TTheory.
Local Open Scope ring_scope.

(** Started from the target, with gradients defined at all states, both backward passes have a result almost
    surely, and it is distributed as the target. *)
Theorem C92_invariant (X : finZmodType) (n' : nat) (Q setting : Type) (noise : setting -> X -> R)
    (scale : setting -> X -> X) (logH : setting -> {ffun 'I_n'.+1 -> X} -> X -> X -> R)
    (rs : resampler n'.+1) (mv : mover n'.+1) L0 (Lt : X -> X -> Q -> xnum) G0 Gt
    (g0 : X -> X) (gt : X -> X -> Q -> X) (key : key) s0 ss qs (backward : bool) :
  (forall s, prob_vec (noise s)) ->
  (forall s, exists S : {ffun 'I_n'.+1 -> X} -> R, forall (x : {ffun 'I_n'.+1 -> X}) b phi,
     \sum_u noise s (u - (x b + phi)) * \prod_(i | i != b) noise s (x i - u)
     = S x * exp (logH s x phi (x b))) ->
  (forall x, log_of (L0 x) (G0 x)) -> (forall x y q, log_of (Lt x y q) (Gt x y q)) ->
  good_resampler rs -> good_mover mv -> size ss = size qs ->
  leaves_invariant_result (size qs) (pot_target G0 Gt qs)
    (fun x0 xs b0 bs => odrop (xl_kernel noise scale logH rs mv L0 Lt (fun x => Some (g0 x)) (fun x y q => Some (gt x y q))
                                 key x0 xs b0 bs s0 ss qs backward)).
Proof. by move=> nP hH l0 lt rg mg s1; exact: (l_invariant scale g0 gt nP hH l0 lt rg). Qed.
Print Assumptions C92_invariant.

(** From every reference where the target is positive, the run has a result where the target is positive. *)
Theorem C92_has_result (X : finZmodType) (n' : nat) (Q setting : Type) (noise : setting -> X -> R)
    (scale : setting -> X -> X) (logH : setting -> {ffun 'I_n'.+1 -> X} -> X -> X -> R)
    (rs : resampler n'.+1) (mv : mover n'.+1) L0 (Lt : X -> X -> Q -> xnum) G0 Gt
    (g0 : X -> X) (gt : X -> X -> Q -> X) (key : key) s0 ss qs (backward : bool) x0 xs b0 bs :
  (forall s, prob_vec (noise s)) ->
  (forall s, exists S : {ffun 'I_n'.+1 -> X} -> R, forall (x : {ffun 'I_n'.+1 -> X}) b phi,
     \sum_u noise s (u - (x b + phi)) * \prod_(i | i != b) noise s (x i - u)
     = S x * exp (logH s x phi (x b))) ->
  (forall x, log_of (L0 x) (G0 x)) -> (forall x y q, log_of (Lt x y q) (Gt x y q)) ->
  good_resampler rs -> good_mover mv -> proper_mover mv ->
  size ss = size qs -> size xs = size qs -> size bs = size qs -> 0 < pot_target G0 Gt qs x0 xs ->
  Pr (odrop (xl_kernel noise scale logH rs mv L0 Lt (fun x => Some (g0 x)) (fun x y q => Some (gt x y q))
               key x0 xs b0 bs s0 ss qs backward))
     (fun o => if o is Some (y0 :: ys, _) then pot_target G0 Gt qs y0 ys == 0 else true) = 0.
Proof. by move=> nP hH l0 lt rg mg mp s1 s2 s3; exact: (l_has_result scale g0 gt nP hH l0 lt rg). Qed.
Print Assumptions C92_has_result.

(** So do all iterations of the kernel. *)
Theorem C92_iterations (X : finZmodType) (n' : nat) (Q setting : Type) (noise : setting -> X -> R)
    (scale : setting -> X -> X) (logH : setting -> {ffun 'I_n'.+1 -> X} -> X -> X -> R)
    (rs : resampler n'.+1) (mv : mover n'.+1) L0 (Lt : X -> X -> Q -> xnum) G0 Gt
    (g0 : X -> X) (gt : X -> X -> Q -> X) (keys : seq key) s0 ss qs (backward : bool) x0 xs b0 bs :
  (forall s, prob_vec (noise s)) ->
  (forall s, exists S : {ffun 'I_n'.+1 -> X} -> R, forall (x : {ffun 'I_n'.+1 -> X}) b phi,
     \sum_u noise s (u - (x b + phi)) * \prod_(i | i != b) noise s (x i - u)
     = S x * exp (logH s x phi (x b))) ->
  (forall x, log_of (L0 x) (G0 x)) -> (forall x y q, log_of (Lt x y q) (Gt x y q)) ->
  good_resampler rs -> good_mover mv -> proper_mover mv ->
  size ss = size qs -> size xs = size qs -> size bs = size qs -> 0 < pot_target G0 Gt qs x0 xs ->
  Pr (xl_runs noise scale logH rs mv L0 Lt (fun x => Some (g0 x)) (fun x y q => Some (gt x y q))
        s0 ss qs backward keys (x0 :: xs, b0 :: bs)) (fun o => ~~ isSome o) = 0.
Proof. by move=> nP hH l0 lt rg mg mp s1 s2 s3; exact: (l_runs_result scale g0 gt nP hH l0 lt rg). Qed.
Print Assumptions C92_iterations.

(** But one state [y] where the gradient of [Gamma_0] is undefined, even of density zero, is enough for a positive
    probability of no result, from every reference, as soon as there are two particles. *)
Theorem C92_undefined_gradient (X : finZmodType) (n' : nat) (Q setting : Type) (noise : setting -> X -> R)
    (scale : setting -> X -> X) (logH : setting -> {ffun 'I_n'.+1 -> X} -> X -> X -> R)
    (rs : resampler n'.+1) (mv : mover n'.+1) L0 (Lt : X -> X -> Q -> xnum)
    (g0 : X -> option X) (gt : X -> X -> Q -> option X) (key : key) s0 ss qs (backward : bool) x0 xs b0 bs y i :
  (forall s z, 0 < noise s z) -> good_resampler rs -> proper_mover mv -> i != b0 -> g0 y = None ->
  0 < Pr (xl_kernel noise scale logH rs mv L0 Lt g0 gt key x0 xs b0 bs s0 ss qs backward) (fun o => ~~ isSome o).
Proof. by move=> np rg mp ib gy; exact: (l_undefined scale logH L0 Lt gt np rg mp key x0 xs bs s0 ss qs backward ib gy). Qed.
Print Assumptions C92_undefined_gradient.

(** The same when the gradient of [Lt] at [y] is undefined from all previous states, at any later time. *)
Theorem C92_undefined_gradient_later (X : finZmodType) (n' : nat) (Q setting : Type) (noise : setting -> X -> R)
    (scale : setting -> X -> X) (logH : setting -> {ffun 'I_n'.+1 -> X} -> X -> X -> R)
    (rs : resampler n'.+1) (mv : mover n'.+1) L0 (Lt : X -> X -> Q -> xnum)
    (g0 : X -> option X) (gt : X -> X -> Q -> option X) (key : key) s0 ss qs (backward : bool) x0 xs b0 bs y q :
  (forall s z, 0 < noise s z) -> good_resampler rs -> proper_mover mv -> (0 < n')%N ->
  size xs = size qs -> size bs = size qs -> size ss = size qs -> List.In q qs -> (forall x, gt x y q = None) ->
  0 < Pr (xl_kernel noise scale logH rs mv L0 Lt g0 gt key x0 xs b0 bs s0 ss qs backward) (fun o => ~~ isSome o).
Proof. by move=> np rg mp two h1 h2 h3 iq gy; eapply l_later; eassumption. Qed.
Print Assumptions C92_undefined_gradient_later.

(** When all potentials are positive and all gradients defined, this is the model of AuxCsmc.v. *)
Theorem C92_agrees (X : finZmodType) (n' : nat) (Q setting : Type) (noise : setting -> X -> R)
    (scale : setting -> X -> X) (logH : setting -> {ffun 'I_n'.+1 -> X} -> X -> X -> R)
    (rs : resampler n'.+1) (mv : mover n'.+1) G0 (Gt : X -> X -> Q -> R)
    (g0 : X -> X) (gt : X -> X -> Q -> X) (key : key) x0 xs b0 bs s0 ss qs (backward : bool) f :
  E (xl_kernel noise scale logH rs mv (fun x => Fin (G0 x)) (fun x y q => Fin (Gt x y q))
       (fun x => Some (g0 x)) (fun x y q => Some (gt x y q)) key x0 xs b0 bs s0 ss qs backward) f
  = E (l_kernel noise scale logH rs mv G0 Gt g0 gt key x0 xs b0 bs s0 ss qs backward)
      (fun r => f (Some (r.1, [seq (fun i => Fin (lw i)) | lw <- r.2]))).
Proof. exact: l_agrees. Qed.
Print Assumptions C92_agrees.

(** The hypotheses are met, on every finite group: noise [exp (ld s z)] normalised, and potentials that vanish on
    all transitions between distinct states. *)
Example C92_hypotheses_met (X : finZmodType) (n' : nat) (setting : Type) (ld : setting -> X -> R) :
  let G0 := fun x : X => (x == 0)%:R : R in
  let Gt := fun (x y : X) (_ : unit) => (x == y)%:R : R in
  let L0 := fun x => if x == 0 then Fin 0 else NInf in
  let Lt := fun (x y : X) (_ : unit) => if x == y then Fin 0 else NInf in
  [/\ forall s, prob_vec (ex_noise ld s), forall s z, 0 < ex_noise ld s z,
      forall s, exists S : {ffun 'I_n'.+1 -> X} -> R, forall (x : {ffun 'I_n'.+1 -> X}) b phi,
        \sum_u ex_noise ld s (u - (x b + phi)) * \prod_(i | i != b) ex_noise ld s (x i - u)
        = S x * exp (ex_logH ld s x phi (x b)),
      (forall x, log_of (L0 x) (G0 x)) /\ (forall x y q, log_of (Lt x y q) (Gt x y q))
    & forall T, 0 < pot_target G0 Gt (nseq T tt) 0 (nseq T 0)].
Proof. exact: l_zeros_met. Qed.

(** Those of [C92_undefined_gradient_later] as well: a gradient that is defined at the
    state 0 only. *)
Example C92_later_hypotheses_met (X : finZmodType) (y : X) (T : nat) : y != 0 ->
  let gt := fun (_ z : X) (_ : unit) => if z == 0 then Some z else None in
  [/\ List.In tt (nseq T.+1 tt), size (nseq T.+1 y) = size (nseq T.+1 tt), forall x, gt x y tt = None
    & forall x, gt x 0 tt = Some 0].
Proof. by move=> y0 gt; split; rewrite ?size_nseq //= ?eqxx; [left|rewrite /gt (negbTE y0)|rewrite /gt eqxx]. Qed.
