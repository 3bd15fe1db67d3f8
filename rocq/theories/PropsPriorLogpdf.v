(** * Property theorems C85: [prior_logpdf] of imh.py.  Statements only; the proofs are in PriorLogpdfProofs.v. *)
From Coq Require Import Reals.
From mathcomp Require Import all_ssreflect all_algebra.
From Verif Require Import RInst Gauss GaussSpec Kalman KalmanSpec MarginalFinal PriorLogpdf PriorLogpdfProofs.

Set Implicit Arguments.
Unset Strict Implicit.
Unset Printing Implicit Defensive.
Import GRing.Theory Num.Theory Order.TTheory.
Local Open Scope ring_scope.

(** ** C85 *)
(** For inverses of any factors of the covariances, it is the log-density of the Gaussian chain up to the normalising constant. *)
Theorem C85_density (d T : nat) (m0 : 'cV[R]_d) (P0 L0 C0 : 'M[R]_d) (F Q L C : nat -> 'M[R]_d) (b x : nat -> 'cV[R]_d) :
  L0 *m L0^T = P0 -> C0 *m L0 = 1%:M ->
  (forall t, (t < T)%N -> L t *m (L t)^T = Q t) -> (forall t, (t < T)%N -> C t *m L t = 1%:M) ->
  prior_logpdf (mkseq x T.+1) m0 C0 (mkseq F T) (mkseq C T) (mkseq b T)
  = chain_logpdf T m0 P0 F Q b x
    + (ln (\det P0) + \sum_(t < T) ln (\det (Q t)) + T.+1%:R * (d%:R * ln (2%:R * PI))) / 2%:R.
Proof. exact: density_statement. Qed.
Print Assumptions C85_density.

(** At the trajectory that [prior_sampling] makes of the noises [eps], it is minus half their squared norm: the sampler that
    proposes in [imh.get_kernel] and this function have the same law. *)
Theorem C85_sampled (d T : nat) (m0 : 'cV[R]_d) (P0 : 'M[R]_d) (F Q : nat -> 'M[R]_d) (b : nat -> 'cV[R]_d)
    (C0 : 'M[R]_d) (C : nat -> 'M[R]_d) (eps : nat -> 'cV[R]_d) :
  spd P0 -> (forall t, spd (Q t)) -> C0 *m cholesky P0 = 1%:M -> (forall t, C t *m cholesky (Q t) = 1%:M) ->
  prior_logpdf (prior_sampling (mkseq eps T.+1) m0 P0 [seq Dyn (F t) (Q t) (b t) | t <- iota 0 T])
    m0 C0 (mkseq F T) (mkseq C T) (mkseq b T) = - (\sum_(t < T.+1) \sum_i eps t i 0 ^+ 2) / 2%:R.
Proof. exact: sampled_statement. Qed.
Print Assumptions C85_sampled.

(** The unit covariance and its factors. *)
Example ex_unit (d : nat) : let I := 1%:M : 'M[R]_d in I *m I^T = I /\ I *m I = I.
Proof. by rewrite /= trmx1 mul1mx. Qed.
Example ex_inverse (d : nat) (S : 'M[R]_d) : spd S -> exists C, C *m cholesky S = 1%:M.
Proof. exact: chol_inverse. Qed.
Example ex_spd (d : nat) : spd (1%:M : 'M[R]_d).
Proof. exact: ex_pos. Qed.
