(** * TwistedReal: model of /repo/gradient_csmc/t_atp_csmc_f.py, the functions passed to csmc.kernel, on R^d. *)
From Coq Require Import Reals.
From mathcomp Require Import all_ssreflect all_algebra.
From Verif Require Import RInst Prog Resampling Csmc AuxCsmc Gauss Kalman Twisted.

Set Implicit Arguments.
Unset Strict Implicit.
Unset Printing Implicit Defensive.
Import GRing.Theory.
Local Open Scope ring_scope.

Section Real.
Variables (d n' : nat) (Q : Type).
Local Notation vec := 'cV[R]_d.
Local Notation pop := (pop vec n').
Local Notation tprop := (tprop d).
(** Settings of one time step: (delta_t, ell_t), parameters of [rt]. *)
Local Notation setting := (R * R * Q)%type.

Variables (r0 : vec -> R) (rt : vec -> vec -> Q -> R) (g0 : vec -> vec) (gt : vec -> vec -> Q -> vec).

(** t_atp_csmc_f.py:109-146, 178-225: the functions passed to csmc.kernel, given the auxiliary
    variable [u0] and the proposal [w0] of time 0; those of later times are in the parameters.
    Sampling real vectors is outside [prog]: the samplers [rvs0] and [rvs] are parameters. *)
Definition tw_vec (s0 : R * R) (w0 : tprop) (u0 : vec) (rvs0 : key -> prog pop)
  (rvs : key -> pop -> tprop -> prog pop) : model vec n' tprop (vec * setting * tprop) :=
  Model rvs0 (tw_M0_logpdf (@tM0_logpdf d) w0)
        (tw_Gamma_0 (sizes_ld s0) (sizes_step s0) (@tM0_logpdf d) r0 g0 w0 u0)
        rvs (tw_Mt_logpdf (@tMt_logpdf d))
        (tw_Gamma_t (fun q : setting => sizes_ld q.1) (fun q : setting => sizes_step q.1) (@tMt_logpdf d)
           (fun x x' (q : setting) => rt x x' q.2) (fun x x' (q : setting) => gt x x' q.2)).
End Real.
