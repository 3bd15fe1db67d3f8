(** * Property theorems C21-C24: utils/math.py, utils/marginalisation.py and the weight
    corrections of l_csmc_f.py, tp_csmc.py, mala.py.  Statements only; the proofs are
    in GaussProofs and MarginalProofs. *)
From Coq Require Import Reals Lra.
From mathcomp Require Import all_ssreflect all_algebra.
From Verif Require Import RInst Gauss GaussSpec GaussProofs MarginalProofs MarginalFinal KalmanSpec Integral.

Set Implicit Arguments.
Unset Strict Implicit.
Unset Printing Implicit Defensive.
Import GRing.Theory Num.Theory Order.TTheory.
Local Open Scope ring_scope.

(** ** C21 *)
(** The model: u ~ N(x_n + phi, ell/2 I) and every other x_i ~ N(u, ell/2 I), for every
    n and phi; the factor does not depend on them. *)
Theorem C21_correction_is_marginal (d N : nat) (ell : R) (xs : 'I_N.+1 -> 'cV[R]_d) : 0 < ell ->
  marginal_of
    (fun (p : 'I_N.+1 * 'cV[R]_d) u => gauss_kernel (ell / 2%:R)%:M u (xs p.1 + p.2)
                + \sum_(i | i != p.1) gauss_kernel (ell / 2%:R)%:M (xs i) u)
    (fun p => log_H_phi N ell p.2 (mean0 xs) (xs p.1)).
Proof. exact: l_marg. Qed.
Print Assumptions C21_correction_is_marginal.

Theorem C21_correction_completes_square (d N : nat) (ell : R) (xs : 'I_N.+1 -> 'cV[R]_d) : 0 < ell ->
  shifted_by
    (fun (p : 'I_N.+1 * 'cV[R]_d) u => gauss_kernel (ell / 2%:R)%:M u (xs p.1 + p.2)
                + \sum_(i | i != p.1) gauss_kernel (ell / 2%:R)%:M (xs i) u)
    (fun p => log_H_phi N ell p.2 (mean0 xs) (xs p.1)).
Proof. exact: l_shift. Qed.
Print Assumptions C21_correction_completes_square.

(** The weight of a particle, with its value [Gs] and gradient [gs] of the log-potential. *)
Theorem C21_weight_is_marginal (d N : nat) (delta ell : R) (xs gs : 'I_N.+1 -> 'cV[R]_d) (Gs : 'I_N.+1 -> R) : 0 < ell ->
  marginal_of
    (fun n u => Gs n + (gauss_kernel (ell / 2%:R)%:M u (xs n + (delta / 2%:R) *: gs n)
                + \sum_(i | i != n) gauss_kernel (ell / 2%:R)%:M (xs i) u))
    (fun n => H_phi N (gs n) (Gs n) delta ell (mean0 xs) (xs n)).
Proof. by move=> l0; exact: l_weight. Qed.
Print Assumptions C21_weight_is_marginal.

(** ** C22 *)
(** The model: u ~ N(x_n + phi, E) and every other x_i ~ N(d_i + B u, C). *)
Theorem C22_log_H_is_marginal (d N : nat) (B C E : 'M[R]_d) (xs ds : 'I_N.+1 -> 'cV[R]_d) :
  symmetric C -> positive C -> symmetric E -> positive E ->
  marginal_of
    (fun (p : 'I_N.+1 * 'cV[R]_d) u => gauss_kernel E u (xs p.1 + p.2)
       + \sum_(i | i != p.1) gauss_kernel C (xs i) (ds i + B *m u))
    (fun p => get_log_H xs ds B (invmx C) E (xs p.1) (ds p.1) p.2).
Proof. by move=> *; apply: log_H_marg. Qed.
Print Assumptions C22_log_H_is_marginal.

Theorem C22_log_H_completes_square (d N : nat) (B C E : 'M[R]_d) (xs ds : 'I_N.+1 -> 'cV[R]_d) :
  symmetric C -> positive C -> symmetric E -> positive E ->
  shifted_by
    (fun (p : 'I_N.+1 * 'cV[R]_d) u => gauss_kernel E u (xs p.1 + p.2)
       + \sum_(i | i != p.1) gauss_kernel C (xs i) (ds i + B *m u))
    (fun p => get_log_H xs ds B (invmx C) E (xs p.1) (ds p.1) p.2).
Proof. by move=> *; apply: log_H_shift. Qed.
Print Assumptions C22_log_H_completes_square.

(** The density of the remaining particles: mean d_i + B (x_n + phi), covariance
    blocks [i = j] C + B E B^T.  [W] and [c] do not depend on [n] and [phi]. *)
Theorem C22_log_H_is_block_density (d N : nat) (B C E : 'M[R]_d) (xs ds : 'I_N.+1 -> 'cV[R]_d) :
  symmetric C -> positive C -> symmetric E -> positive E ->
  exists W c, forall n phi,
    block_precision (fun i => i != n) (fun i j => (if i == j then C else 0) + B *m E *m B^T) W /\
    get_log_H xs ds B (invmx C) E (xs n) (ds n) phi + c
    = block_kernel (fun i => i != n) W (fun i => xs i - (ds i + B *m (xs n + phi))).
Proof. by move=> *; apply: log_H_block. Qed.
Print Assumptions C22_log_H_is_block_density.

(** ** C23 *)
(** Particle-mGRAD: B = K, C = delta/2 K, E = delta/2 I. *)
Theorem C23_bis_is_general (d N : nat) (xs ds : 'I_N.+1 -> 'cV[R]_d) (K : 'M[R]_d) (delta : R) (x e phi : 'cV[R]_d) :
  0 < delta -> symmetric K -> positive K ->
  get_log_H_bis xs ds K (invmx K) delta x e phi
  = get_log_H xs ds K (invmx ((delta / 2%:R) *: K)) (delta / 2%:R)%:M x e phi.
Proof. exact: bis_is_general. Qed.
Print Assumptions C23_bis_is_general.

(** Multi-proposal MALA calls it with [c_inv = 2/delta], [e = delta/2]. *)
Theorem C23_mala_is_general (d N : nat) (xs : 'I_N.+1 -> 'cV[R]_d) (x phi : 'cV[R]_d) (delta : R) : delta != 0 ->
  mala_log_H xs (2%:R / delta) (delta / 2%:R) x phi
  = get_log_H xs (fun=> 0) 1%:M (invmx (delta / 2%:R)%:M) (delta / 2%:R)%:M x 0 phi.
Proof. exact: mala_is_general. Qed.
Print Assumptions C23_mala_is_general.

Theorem C23_l_is_mala (d N : nat) (xs : 'I_N.+1 -> 'cV[R]_d) (x phi : 'cV[R]_d) (ell : R) : ell != 0 ->
  log_H_phi N ell phi (mean0 xs) x = mala_log_H xs (2%:R / ell) (ell / 2%:R) x phi.
Proof. exact: l_mala. Qed.
Print Assumptions C23_l_is_mala.

(** ** C24 *)
Theorem C24_mvn_logpdf (d : nat) (L : 'M[R]_d) (x m : 'cV[R]_d) (ci : option 'M[R]_d) :
  is_trig_mx L -> (forall i, L i i != 0) -> ci = None \/ ci = Some (invmx L) ->
  mvn_logpdf x m L ci true = gauss_logpdf (L *m L^T) x m /\
  mvn_logpdf x m L ci false = gauss_kernel (L *m L^T) x m.
Proof. by move=> *; apply: mvn_logpdf_spec. Qed.
Print Assumptions C24_mvn_logpdf.

Theorem C24_swap (d : nat) (x m : 'cV[R]_d) (L : 'M[R]_d) (ci : option 'M[R]_d) (b : bool) :
  mvn_logpdf x m L ci b = mvn_logpdf m x L ci b.
Proof. exact: mvn_swap. Qed.
Print Assumptions C24_swap.

(** The density of a draw of [rvs] is the standard normal density of the noise. *)
Theorem C24_rvs (d : nat) (L : 'M[R]_d) (eps m : 'cV[R]_d) (ci : option 'M[R]_d) :
  is_trig_mx L -> (forall i, L i i != 0) -> ci = None \/ ci = Some (invmx L) ->
  mvn_logpdf (rvs_of eps m L) m L ci false = gauss_kernel 1%:M eps 0.
Proof. by move=> *; apply: rvs_std. Qed.
Print Assumptions C24_rvs.

Theorem C24_norm_logpdf (x loc scale : R) (b : bool) : 0 < scale ->
  norm_logpdf x loc scale b = mvn_logpdf x%:M loc%:M (scale%:M : 'M[R]_1) None b.
Proof. exact: norm_is_mvn. Qed.
Print Assumptions C24_norm_logpdf.

(** ** The hypotheses are met *)
Example ex_positive (d : nat) : symmetric (1%:M : 'M[R]_d) /\ positive (1%:M : 'M[R]_d).
Proof. exact: ex_pos. Qed.
Example ex_trig (d : nat) : is_trig_mx (1%:M : 'M[R]_d) /\ forall i, (1%:M : 'M[R]_d) i i != 0.
Proof. exact: ex_tri. Qed.
(** In every dimension there is an integral with the properties used, for which every Gaussian
    density has a positive integral. *)
Example ex_integral (d : nat) : exists I : ('cV[R]_d -> R) -> R, [/\ translation_invariant I,
  forall g, (forall u, 0 <= g u) -> 0 <= I g
  & forall S m, spd S -> 0 < I (fun u => exp (gauss_kernel S u m))].
Proof. exact: integral_exists. Qed.
