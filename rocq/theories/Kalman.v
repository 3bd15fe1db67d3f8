(** * Kalman: model of /repo/gradient_csmc/utils/kalman (filtering.py, sampling.py, smoothing.py).

    Real arithmetic: [jnp.nan_to_num] is the identity.  [jnp.vectorize] and the batch axis of
    [sampling] and [prior_sampling] apply the functions below to each sample. *)
From Coq Require Import Reals.
From mathcomp Require Import all_ssreflect all_algebra.
From Verif Require Import RInst Gauss.

Set Implicit Arguments.
Unset Strict Implicit.
Unset Printing Implicit Defensive.
Import GRing.Theory Num.Theory Order.TTheory.
Local Open Scope ring_scope.

(** [jnp.linalg.cholesky]: the textbook recursion, on the symmetrised input.  (On a matrix that is
    not positive the library returns NaN; here [sqrt] and the inverse are total.) *)
Definition half_sum (n : nat) (A : 'M[R]_n) : 'M[R]_n := (1 / 2%:R) *: (A + A^T).
Fixpoint chol_rec (n : nat) : 'M[R]_n -> 'M[R]_n :=
  match n with
  | 0 => fun A => A
  | n'.+1 => fun A : 'M[R]_(1 + n') =>
      let l := sqrt (A 0 0) in
      let v := dlsubmx A in
      block_mx (l%:M : 'M[R]_1) 0 (l^-1 *: v) (chol_rec (drsubmx A - (A 0 0)^-1 *: (v *m v^T)))
  end.
Definition cholesky (n : nat) (A : 'M[R]_n) : 'M[R]_n := chol_rec (half_sum A).

(** [cho_solve((chol, True), B)]. *)
Definition cho_solve (n k : nat) (chol : 'M[R]_n) (B : 'M[R]_(n, k)) : 'M[R]_(n, k) :=
  invmx (tril chol)^T *m (invmx (tril chol) *m B).

Section Filtering.
Variables dx dy : nat.

(** filtering.py:58-74. *)
Definition sequential_update (y : 'cV[R]_dy) (m : 'cV[R]_dx) (P : 'M[R]_dx) (H : 'M[R]_(dy, dx)) (c : 'cV[R]_dy) (Rc : 'M[R]_dy)
  : 'cV[R]_dx * 'M[R]_dx * R :=
  let y_hat := H *m m + c in
  let y_diff := y - y_hat in
  let S := Rc + H *m P *m H^T in
  let chol_S := cholesky S in
  let ell_inc := mvn_logpdf y y_hat chol_S None true in
  let G := (cho_solve chol_S (H *m P))^T in
  let m := m + G *m y_diff in
  let P := P - G *m S *m G^T in
  let P := (1 / 2%:R) *: (P + P^T) in
  (m, P, ell_inc).

(** filtering.py:78-83. *)
Definition sequential_predict (m : 'cV[R]_dx) (P F : 'M[R]_dx) (b : 'cV[R]_dx) (Q : 'M[R]_dx) : 'cV[R]_dx * 'M[R]_dx :=
  let m := F *m m + b in
  let P := Q + F *m P *m F^T in
  let P := (1 / 2%:R) *: (P + P^T) in
  (m, P).

(** filtering.py:87-91. *)
Definition sequential_predict_update m P F b Q (y : 'cV[R]_dy) H c Rc : 'cV[R]_dx * 'M[R]_dx * R :=
  let: (m, P) := sequential_predict m P F b Q in
  sequential_update y m P H c Rc.

(** One time step of the dynamics, one observation. *)
Record dyn := Dyn { dF : 'M[R]_dx; dQ : 'M[R]_dx; db : 'cV[R]_dx }.
Record obs := Obs { oH : 'M[R]_(dy, dx); oR : 'M[R]_dy; oc : 'cV[R]_dy; oy : 'cV[R]_dy }.

(** filtering.py:43-51: the scan. *)
Fixpoint filter_scan (m : 'cV[R]_dx) (P : 'M[R]_dx) (ell : R) (ins : seq (dyn * obs)) : seq ('cV[R]_dx * 'M[R]_dx) * R :=
  match ins with
  | [::] => ([::], ell)
  | (f, o) :: ins' =>
      let: (m, P, ell_inc) := sequential_predict_update m P (dF f) (db f) (dQ f) (oy o) (oH o) (oc o) (oR o) in
      let: (out, ell) := filter_scan m P (ell + ell_inc) ins' in
      ((m, P) :: out, ell)
  end.

(** filtering.py:13-54.  Returns the pairs (mean, covariance) and the log-likelihood.  (The code
    raises an error when there are neither as many observations as states nor one less;
    here the shorter list wins.) *)
Definition filtering (os : seq obs) (m0 : 'cV[R]_dx) (P0 : 'M[R]_dx) (fs : seq dyn) : seq ('cV[R]_dx * 'M[R]_dx) * R :=
  let: (m0, P0, ell0, os) :=
    match os with
    | o :: os' => if size os == (size fs).+1 then
        (sequential_update (oy o) m0 P0 (oH o) (oc o) (oR o), os') else (m0, P0, 0, os)
    | [::] => (m0, P0, 0, os)
    end in
  let: (out, ell) := filter_scan m0 P0 ell0 (zip fs os) in
  ((m0, P0) :: out, ell).
End Filtering.

(** [jax.lax.scan(body, init, xs, reverse=True)], without randomness: the last input first, the
    outputs at the positions of their inputs. *)
Fixpoint scan_reverse (C I O : Type) (body : C -> I -> C * O) (c : C) (ins : seq I) : C * seq O :=
  match ins with
  | [::] => (c, [::])
  | i :: ins' => let: (c', os) := scan_reverse body c ins' in let: (c'', o) := body c' i in (c'', o :: os)
  end.

Section Sampling.
Variable dx : nat.
Local Notation vec := 'cV[R]_dx.
Local Notation mat := 'M[R]_dx.
Local Notation dyn := (dyn dx).

(** sampling.py:28-35, one sample. *)
Definition sampling_body (x_t_p_1 : vec) (inp : vec * (vec * mat) * dyn) : vec * vec :=
  let: (eps_t, (m_t, P_t), f) := inp in
  let: (m_t, P_t, _) := sequential_update x_t_p_1 m_t P_t (dF f) (db f) (dQ f) in
  let chol_P_t := cholesky P_t in
  let x_t := m_t + chol_P_t *m eps_t in
  (x_t, x_t).

(** sampling.py:26-43: one sample, for the standard normal vectors [epsilons] (drawn at line 26);
    [filt] is the list of filtering means and covariances. *)
Definition sampling (epsilons : seq vec) (filt : seq (vec * mat)) (fs : seq dyn) : seq vec :=
  let: (m_T, P_T) := last (0, 0) filt in
  let x_T := m_T + cholesky P_T *m head 0 epsilons in
  let: (_, samples) := scan_reverse sampling_body x_T (zip (zip (behead epsilons) (take (size filt).-1 filt)) fs) in
  rcons samples x_T.

(** sampling.py:66-78: one sample of the prior. *)
Fixpoint prior_scan (x : vec) (ins : seq (vec * dyn)) : seq vec :=
  match ins with
  | [::] => [::]
  | (eps_t, f) :: ins' =>
      let x_t := dF f *m x + db f + cholesky (dQ f) *m eps_t in
      x_t :: prior_scan x_t ins'
  end.
Definition prior_sampling (epsilons : seq vec) (m0 : vec) (P0 : mat) (fs : seq dyn) : seq vec :=
  let x0 := m0 + cholesky P0 *m head 0 epsilons in
  x0 :: prior_scan x0 (zip (behead epsilons) fs).

(** smoothing.py:21-33; [solve(S, F, assume_a="pos")] is [invmx S *m F]. *)
Definition smoothing_body (carry : vec * mat) (inp : (vec * mat) * dyn) : (vec * mat) * (vec * mat) :=
  let: (m_t_p_1, P_t_p_1) := carry in
  let: ((m_t, P_t), f) := inp in
  let mean_diff := m_t_p_1 - (db f + dF f *m m_t) in
  let S := dF f *m P_t *m (dF f)^T + dQ f in
  let cov_diff := P_t_p_1 - S in
  let gain := P_t *m (invmx S *m dF f)^T in
  let m_t := m_t + gain *m mean_diff in
  let P_t := P_t + gain *m cov_diff *m gain^T in
  ((m_t, P_t), (m_t, P_t)).

(** smoothing.py:7-39. *)
Definition smoothing (filt : seq (vec * mat)) (fs : seq dyn) : seq (vec * mat) :=
  let final := last (0, 0) filt in
  let: (_, out) := scan_reverse smoothing_body final (zip (take (size filt).-1 filt) fs) in
  rcons out final.
End Sampling.
