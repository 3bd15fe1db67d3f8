(** * MarginalFinal: the forms of C21-C24 stated in PropsGauss. *)
From Coq Require Import Reals Lra.
From mathcomp Require Import all_ssreflect all_algebra.
From Verif Require Import RInst Gauss GaussSpec GaussProofs MarginalProofs.

Set Implicit Arguments.
Unset Strict Implicit.
Unset Printing Implicit Defensive.
Import GRing.Theory Num.Theory Order.TTheory.
Local Open Scope ring_scope.

Section General.
Variables (d N : nat) (B C E : 'M[R]_d) (xs ds : 'I_N.+1 -> 'cV[R]_d).
Hypotheses (sC : symmetric C) (pC : positive C) (sE : symmetric E) (pE : positive E).
Local Notation J := (fun (p : 'I_N.+1 * 'cV[R]_d) u => gauss_kernel E u (xs p.1 + p.2)
                + \sum_(i | i != p.1) gauss_kernel C (xs i) (ds i + B *m u)).
Local Notation H := (fun p => get_log_H xs ds B (invmx C) E (xs p.1) (ds p.1) p.2).

Lemma log_H_shift : shifted_by J H.
Proof.
exists (fun w => cst B C E xs ds - quad (prec N B C E) w / 2%:R),
  (fun p => invmx (prec N B C E) *m hv B C E xs ds (fun=> p.2) p.1) => -[n phi] u.
by have := @joint_square d N B C E sC pC sE pE xs ds (fun=> phi) n u; rewrite -addrA => <-.
Qed.

Lemma log_H_marg : marginal_of J H.
Proof.
have [q [a e]] := log_H_shift.
by apply: (@complete_square _ _ J H 0 q a) => n u; rewrite addr0 e.
Qed.

Lemma log_H_block : exists W c, forall n phi,
  block_precision (fun i => i != n) (fun i j => (if i == j then C else 0) + B *m E *m B^T) W /\
  get_log_H xs ds B (invmx C) E (xs n) (ds n) phi + c
  = block_kernel (fun i => i != n) W (fun i => xs i - (ds i + B *m (xs n + phi))).
Proof.
exists (@block d N B C E), (cst B C E xs ds) => n phi; split=> [i j ni nj|]; first exact: block_inverse.
rewrite (@lH_block d N B C E sC pC sE pE xs ds (fun=> phi)) // /block_kernel; congr (- _ / _).
by apply: eq_bigr => i _; apply: eq_bigr => j _; rewrite /dotv mulmxA.
Qed.
End General.

Section L.
Variables (d N : nat) (ell : R) (xs : 'I_N.+1 -> 'cV[R]_d).
Hypothesis l0 : 0 < ell.
Local Notation J := (fun (p : 'I_N.+1 * 'cV[R]_d) u => gauss_kernel (ell / 2%:R)%:M u (xs p.1 + p.2)
                + \sum_(i | i != p.1) gauss_kernel (ell / 2%:R)%:M (xs i) u).
Local Notation H := (fun p => log_H_phi N ell p.2 (mean0 xs) (xs p.1)).

Lemma l_shift : shifted_by J H.
Proof.
have [q [a e]] := @log_H_shift d N 1%:M _ _ xs (fun=> 0) (@l_sym d ell) (@l_pos d ell l0) (@l_sym d ell) (@l_pos d ell l0).
exists q, a => -[n phi] u.
rewrite (@l_general d N ell xs (fun=> phi) l0) -(e (n, phi) u) /=; congr (_ + _).
by apply: eq_bigr => i _; rewrite mul1mx add0r.
Qed.

Lemma l_marg : marginal_of J H.
Proof.
have [q [a e]] := l_shift.
by apply: (@complete_square _ _ J H 0 q a) => n u; rewrite addr0 e.
Qed.
End L.

Lemma l_weight (d N : nat) (delta ell : R) (xs gs : 'I_N.+1 -> 'cV[R]_d) (Gs : 'I_N.+1 -> R) : 0 < ell ->
  marginal_of
    (fun n u => Gs n + (gauss_kernel (ell / 2%:R)%:M u (xs n + (delta / 2%:R) *: gs n)
                + \sum_(i | i != n) gauss_kernel (ell / 2%:R)%:M (xs i) u))
    (fun n => H_phi N (gs n) (Gs n) delta ell (mean0 xs) (xs n)).
Proof.
move=> l0; have [q [a e]] := l_shift xs l0.
apply: (@complete_square _ _ _ _ 0 q (fun n => a (n, (delta / 2%:R) *: gs n))) => n u.
have := e (n, (delta / 2%:R) *: gs n) u => /= ->; rewrite addr0 /H_phi addrA; congr (_ + log_H_phi _ _ _ _ _ + _).
by rewrite mul1r mulrC.
Qed.

Lemma bis_is_general (d N : nat) (xs ds : 'I_N.+1 -> 'cV[R]_d) (K : 'M[R]_d) (delta : R) (x e phi : 'cV[R]_d) :
  0 < delta -> symmetric K -> positive K ->
  get_log_H_bis xs ds K (invmx K) delta x e phi
  = get_log_H xs ds K (invmx ((delta / 2%:R) *: K)) (delta / 2%:R)%:M x e phi.
Proof.
move=> d0 sK pK; have Ku := positive_unit pK.
have u2 : delta / 2%:R \is a GRing.unit by rewrite unitfE lt0r_neq0 // divr_gt0 ?ltr0n.
rewrite bis_general //; last by rewrite lt0r_neq0.
  by rewrite invmxZ ?unitmxZ // invf_div.
apply: positive_unit; apply: positive_add; first by apply: positive_scalar; rewrite ltr01.
by move=> v; rewrite quadZ mulr_ge0 ?ler0n // positive_ge0.
Qed.

Lemma mala_is_general (d N : nat) (xs : 'I_N.+1 -> 'cV[R]_d) (x phi : 'cV[R]_d) (delta : R) : delta != 0 ->
  mala_log_H xs (2%:R / delta) (delta / 2%:R) x phi
  = get_log_H xs (fun=> 0) 1%:M (invmx (delta / 2%:R)%:M) (delta / 2%:R)%:M x 0 phi.
Proof.
move=> d0; rewrite mala_general; last by move/eqP: d0 => d0; toR; field.
by rewrite -[2%:R / delta]invf_div -invmx_scalar.
Qed.

Lemma rvs_std (d : nat) (L : 'M[R]_d) (eps m : 'cV[R]_d) (ci : option 'M[R]_d) :
  is_trig_mx L -> (forall i, L i i != 0) -> ci = None \/ ci = Some (invmx L) ->
  mvn_logpdf (rvs_of eps m L) m L ci false = gauss_kernel 1%:M eps 0.
Proof.
move=> tL dL hc; rewrite rvs_density // /gauss_kernel quadE invmx1 mul1mx subr0 sqnE.
by dotfield.
Qed.

Lemma norm_is_mvn (x loc scale : R) (b : bool) : 0 < scale ->
  norm_logpdf x loc scale b = mvn_logpdf x%:M loc%:M (scale%:M : 'M[R]_1) None b.
Proof. by move=> s0; rewrite norm_logpdf_spec // scalemx1. Qed.

Lemma ex_pos (d : nat) : symmetric (1%:M : 'M[R]_d) /\ positive (1%:M : 'M[R]_d).
Proof. by split; [rewrite /symmetric trmx1 | apply: positive_scalar; rewrite ltr01]. Qed.

Lemma ex_tri (d : nat) : is_trig_mx (1%:M : 'M[R]_d) /\ forall i, (1%:M : 'M[R]_d) i i != 0.
Proof. by split=> [|i]; [rewrite scalar_mx_is_trig | rewrite mxE eqxx oner_eq0]. Qed.
