(** * Gauss: model of the Gaussian formulas of /repo/gradient_csmc: utils/math.py,
    utils/marginalisation.py, and the weight corrections of l_csmc_f.py,
    tp_csmc.py and mala.py.

    A vector of dimension d is a column ['cV[R]_d]; a matrix is ['M[R]_d].
    [jnp.nan_to_num] is the identity on real numbers, [jnp.isfinite] is true. *)
From Coq Require Import Reals.
From mathcomp Require Import all_ssreflect all_algebra.
From Verif Require Import RInst.

Set Implicit Arguments.
Unset Strict Implicit.
Unset Printing Implicit Defensive.
Import GRing.Theory Num.Theory Order.TTheory.
Local Open Scope ring_scope.

(** [jnp.dot(u, v)] on vectors. *)
Definition dotv (d : nat) (u v : 'cV[R]_d) : R := (u^T *m v) 0 0.

(** [jnp.sum(y * y)]. *)
Definition sqn (d : nat) (y : 'cV[R]_d) : R := \sum_i y i 0 * y i 0.

(** ** utils/math.py *)
Section Math.
Variable d : nat.
Local Notation vec := 'cV[R]_d.
Local Notation mat := 'M[R]_d.

(** [jax.scipy.linalg.solve_triangular(chol, b, lower=True)]: only the lower triangle
    is read; the result is the solution of the triangular system. *)
Definition tril (chol : mat) : mat := \matrix_(i, j) (if (j <= i)%N then chol i j else 0).
Definition solve_triangular (k : nat) (chol : mat) (b : 'M[R]_(d, k)) : 'M[R]_(d, k) := invmx (tril chol) *m b.

(** math.py:88-93. *)
Definition logpdf_with_inv (x m : vec) (chol_inv : mat) : R :=
  let y := chol_inv *m (x - m) in - (1 / 2%:R) * sqn y.

(** math.py:96-100. *)
Definition logpdf (x m : vec) (chol : mat) : R :=
  let y := solve_triangular chol (x - m) in - (1 / 2%:R) * sqn y.

(** math.py:55-61, for a matrix. *)
Definition tril_log_det (chol : mat) : R := \sum_i ln `|chol i i|.

(** math.py:48-52; every diagonal entry is finite. *)
Definition get_constant (chol : mat) : R :=
  tril_log_det chol + 1 / 2%:R * d%:R * ln (2%:R * PI).

(** math.py:11-45.  When [chol_inv] is given and [constant] is false, [chol] is
    not read (callers pass [None]). *)
Definition mvn_logpdf (x m : vec) (chol : mat) (chol_inv : option mat) (constant : bool) : R :=
  let out := if chol_inv is Some ci then logpdf_with_inv x m ci else logpdf x m chol in
  let normalizing_constant := if constant then get_constant chol else 0 in
  out - normalizing_constant.

(** math.py:64-78, given the standard normal draw [eps]. *)
Definition rvs_of (eps m : vec) (chol : mat) : vec := m + chol *m eps.
End Math.

(** math.py:81-85; [jax.scipy.stats.norm.logpdf] when [constant]. *)
Definition norm_logpdf (x loc scale : R) (constant : bool) : R :=
  if constant then - (1 / 2%:R) * ((x - loc) / scale) ^+ 2 - ln (scale * sqrt (2%:R * PI))
  else let z := (x - loc) / scale in - (1 / 2%:R) * z ^+ 2.

(** ** Marginal corrections *)
Section Marginal.
Variables (d N : nat).
Local Notation vec := 'cV[R]_d.
Local Notation mat := 'M[R]_d.
(** Rows of an array of shape (N + 1, d). *)
Local Notation rows := ('I_N.+1 -> vec).

(** [jnp.mean(xs, 0)]. *)
Definition mean0 (xs : rows) : vec := N.+1%:R^-1 *: \sum_i xs i.

(** l_csmc_f.py:75-80, one particle: [log_H_phi] ([phi] is [0.5 * delta_t * Gamma_grad]). *)
Definition log_H_phi (ell_t : R) (phi x_bar_t x_t : vec) : R :=
  let inner := dotv (x_bar_t - x_t) phi in
  let phi_norm_sq := sqn phi in
  (2%:R * inner - N%:R / (N%:R + 1) * phi_norm_sq) / ell_t.

Definition H_phi (Gamma_grad : vec) (Gamma_val delta_t ell_t : R) (x_bar_t x_t : vec) : R :=
  let phi := (1 / 2%:R * delta_t) *: Gamma_grad in
  Gamma_val + log_H_phi ell_t phi x_bar_t x_t.

(** The pair of step sizes [(delta_t, ell_t)] of one time.
    [- sum(z ** 2) / ell_t] (al_csmc_f.py:80,85,96,102), the log-density of the noise
    [sqrt(0.5 * ell_t) * eps] up to a constant; [0.5 * delta_t * grad] (al_csmc_f.py:117,
    l_csmc_f.py:75,110); [log_H_phi] at the mean of a generation (l_csmc_f.py:75-78,120). *)
Definition sizes_ld (s : R * R) (z : vec) : R := - sqn z / s.2.
Definition sizes_step (s : R * R) (g : vec) : vec := (1 / 2%:R * s.1) *: g.
Definition sizes_H (s : R * R) (xs : {ffun 'I_N.+1 -> vec}) (phi x : vec) : R :=
  log_H_phi s.2 phi (mean0 xs) x.

(** utils/marginalisation.py:8-33.  [ds] has one row per particle (a single offset
    is repeated before use).  [solve(A, B, assume_a="pos")] is [invmx A *m B]. *)
Definition get_log_H (xs ds : rows) (B C_inv E : mat) (x d phi : vec) : R :=
  let x_bar := mean0 xs in
  let d_bar := mean0 ds in
  let Kappa := C_inv *m B *m E in
  let Nu := Kappa^T *m B *m E in
  let G := Kappa *m (invmx (E + N%:R *: Nu) *m Kappa^T) in
  let x_d := x - d in
  let B_x_phi := B *m (x + phi) in
  let term_1 := - dotv x_d ((C_inv + G) *m x_d) in
  let term_2 := N%:R * dotv B_x_phi ((C_inv - N%:R *: G) *m B_x_phi) in
  let term_3 := 2%:R * (N%:R + 1) * dotv (x_bar - d_bar) (G *m x_d - (C_inv - N%:R *: G) *m B_x_phi) in
  let term_4 := 2%:R * dotv x_d ((C_inv - N%:R *: G) *m B_x_phi) in
  - (1 / 2%:R) * (term_1 + term_2 + term_3 + term_4).

(** tp_csmc.py:192-217. *)
Definition get_log_H_bis (xs ds : rows) (K K_inv : mat) (delta : R) (x d phi : vec) : R :=
  let x_bar := mean0 xs in
  let d_bar := mean0 ds in
  let x_d_bar := x_bar - d_bar in
  let G := delta^-1 *: (2%:R *: invmx (1%:M + N%:R *: K)) in
  let x_d := x - d in
  let term_1 := - dotv x_d ((delta^-1 *: (2%:R *: K_inv) + G) *m x_d) in
  let term_2 := N%:R * dotv (K *m (x + phi)) (G *m (x + phi)) in
  let term_3 := - (2%:R * (N%:R + 1) * dotv x_d_bar (G *m (d + phi))) in
  let term_4 := 2%:R * dotv x_d (G *m (x + phi)) in
  - (1 / 2%:R) * (term_1 + term_2 + term_3 + term_4).

(** mala.py:92-109. *)
Definition mala_log_H (xs : rows) (c_inv e : R) (x phi : vec) : R :=
  let x_bar := mean0 xs in
  let G := 1 / (e + N%:R * e) in
  let B_x_phi := x + phi in
  let term_1 := - ((c_inv + G) * dotv x x) in
  let term_2 := N%:R * (c_inv - N%:R * G) * dotv B_x_phi B_x_phi in
  let term_3 := 2%:R * (N%:R + 1) * dotv x_bar (G *: x - (c_inv - N%:R * G) *: B_x_phi) in
  let term_4 := 2%:R * (c_inv - N%:R * G) * dotv x B_x_phi in
  - (1 / 2%:R) * (term_1 + term_2 + term_3 + term_4).
End Marginal.
