(** * Property theorems C25: the preconditioned proposal of atp_csmc_f.py (also used by
    tp_csmc.py, atp_csmc_s.py).  Statements only; proofs in ProposalProofs.

    [U], [G] are any orthogonal matrix and positive values with U diag(G) U^T = Q, as
    returned by the hermitian SVD of a symmetric positive definite Q. *)
From Coq Require Import Reals.
From mathcomp Require Import all_ssreflect all_algebra.
From Verif Require Import RInst Gauss GaussSpec Proposal ProposalProofs.

Set Implicit Arguments.
Unset Strict Implicit.
Unset Printing Implicit Defensive.
Import GRing.Theory Num.Theory Order.TTheory.
Local Open Scope ring_scope.

(** The mean of the proposal is m + Q (Q + ell/2 I)^-1 (u - m). *)
Theorem C25_mean (d : nat) (Q U : 'M[R]_d) (G : 'rV[R]_d) (ell : R) (u m : 'cV[R]_d) :
  U *m U^T = 1%:M -> (forall i, 0 < G 0 i) -> 0 < ell -> Q = U *m diag_mx G *m U^T ->
  prop_mean (get_proposal_params ell U G U^T) u m = m + Q *m invmx (Q + (ell / 2%:R)%:M) *m (u - m).
Proof. by move=> UU G0 l0 ->; rewrite /prop_mean mulmxA gainE. Qed.
Print Assumptions C25_mean.

(** Its covariance is Q - K Q = (ell/2) K with K = Q (Q + ell/2 I)^-1, as long as
    the clipping of the variances at 1e-15 is not active. *)
Theorem C25_covariance (d : nat) (Q U : 'M[R]_d) (G : 'rV[R]_d) (ell : R) :
  U *m U^T = 1%:M -> (forall i, 0 < G 0 i) -> 0 < ell -> Q = U *m diag_mx G *m U^T ->
  (forall i, stable_zero <= G 0 i * (ell / 2%:R) / (G 0 i + ell / 2%:R)) ->
  let K := Q *m invmx (Q + (ell / 2%:R)%:M) in
  let L := p_chol (get_proposal_params ell U G U^T) in
  L *m L^T = Q - K *m Q /\ L *m L^T = (ell / 2%:R) *: K.
Proof. by move=> UU G0 l0 -> cl; rewrite -/(Qm U G) -gainE //=; split; [apply: covE | apply: cov_K]. Qed.
Print Assumptions C25_covariance.

(** The particles drawn have the density with that mean and covariance. *)
Theorem C25_sampled (d : nat) (U : 'M[R]_d) (G : 'rV[R]_d) (ell : R) (u m eps : 'cV[R]_d) :
  U *m U^T = 1%:M -> (forall i, 0 < G 0 i) -> 0 < ell ->
  (forall i, stable_zero <= G 0 i * (ell / 2%:R) / (G 0 i + ell / 2%:R)) ->
  let p := get_proposal_params ell U G U^T in
  gauss_kernel (p_chol p *m (p_chol p)^T) (prop_rvs p u m eps) (prop_mean p u m) = gauss_kernel 1%:M eps 0.
Proof. by move=> *; apply: rvs_density_prop. Qed.
Print Assumptions C25_sampled.

(** The inverse gain used by tp_csmc.py. *)
Theorem C25_inverse_gain (d : nat) (Q U : 'M[R]_d) (G : 'rV[R]_d) (ell : R) :
  U *m U^T = 1%:M -> (forall i, 0 < G 0 i) -> 0 < ell -> Q = U *m diag_mx G *m U^T ->
  p_K_inv (get_proposal_params ell U G U^T) = invmx (Q *m invmx (Q + (ell / 2%:R)%:M)).
Proof. by move=> UU G0 l0 ->; rewrite -/(Qm U G) -gainE // K_invE. Qed.
Print Assumptions C25_inverse_gain.

(** The density evaluated in the weights is not the density sampled from, not even up
    to a constant: [chol_inv = U / temp] (atp_csmc_f.py:153) is U diag(1/temp), whereas the
    inverse of [chol = U * temp] is diag(1/temp) U^T. *)
Theorem C25_density_refuted :
  ~ (forall (d : nat) (U : 'M[R]_d) (G : 'rV[R]_d) (ell : R),
      U *m U^T = 1%:M -> (forall i, 0 < G 0 i) -> 0 < ell ->
      (forall i, stable_zero <= G 0 i * (ell / 2%:R) / (G 0 i + ell / 2%:R)) ->
      let p := get_proposal_params ell U G U^T in
      exists c, forall u m x,
        prop_logpdf p u m x = gauss_kernel (p_chol p *m (p_chol p)^T) x (prop_mean p u m) + c).
Proof.
have two : 0 < 2%:R :> R by rewrite ltr0n.
move=> H; apply: Qw; apply/(@density_iff 2 Uw Gw 2%:R Uw_orth Gw_pos two Gw_clip).
by have [c Hc] := H 2%N Uw Gw 2%:R Uw_orth Gw_pos two Gw_clip; exists c => u m x; apply: Hc.
Qed.
Print Assumptions C25_density_refuted.

(** It is exactly when Q = diag(G), i.e. Q is diagonal and the SVD returned its
    diagonal in place. *)
Theorem C25_density_partial (d : nat) (Q U : 'M[R]_d) (G : 'rV[R]_d) (ell : R) :
  U *m U^T = 1%:M -> (forall i, 0 < G 0 i) -> 0 < ell -> Q = U *m diag_mx G *m U^T ->
  (forall i, stable_zero <= G 0 i * (ell / 2%:R) / (G 0 i + ell / 2%:R)) ->
  let p := get_proposal_params ell U G U^T in
  (exists c, forall u m x,
     prop_logpdf p u m x = gauss_kernel (p_chol p *m (p_chol p)^T) x (prop_mean p u m) + c)
  <-> Q = diag_mx G.
Proof. by move=> UU G0 l0 -> cl; apply: density_iff. Qed.
Print Assumptions C25_density_partial.

(** The hypotheses are met. *)
Example ex_factorisation : [/\ Uw *m Uw^T = 1%:M, forall i, 0 < Gw 0 i
  & forall i, stable_zero <= Gw 0 i * (2%:R / 2%:R) / (Gw 0 i + 2%:R / 2%:R)].
Proof. by split; [exact: Uw_orth | exact: Gw_pos | exact: Gw_clip]. Qed.
