(** * TpFinal: final form of the facts stated in PropsTp, and examples. *)
From Coq Require Import Reals Lra.
From mathcomp Require Import all_ssreflect all_algebra.
From Verif Require Import RInst Prog ProgTheory Resampling Spec ResamplingProofs MoveProofs.
From Verif Require Import Csmc CsmcInvariance CsmcProofs KeyProofs CsmcSpecs CsmcFinal AuxCsmc SweepTheory AuxProofs AuxStruct AuxFinal.
From Verif Require Import Gauss GaussSpec GaussProofs MarginalProofs MarginalFinal Proposal ProposalProofs TpCsmc TpProofs.

Set Implicit Arguments.
Unset Strict Implicit.
Unset Printing Implicit Defensive.
Import GRing.Theory Num.Theory Order.TTheory.
Local Open Scope ring_scope.

Section Tp.
Variables (X : finZmodType) (n' : nat) (Q : Type).
Local Notation n := n'.+1.
Local Notation pop := (pop X n').
Variables (noise0 ld0 : X -> R) (noise ld : Q -> X -> R).
Variables (scale0 : X -> X) (scale : Q -> X -> X).
Variables (pnoise0 pld0 : X -> R) (pnoise pld : Q -> X -> R).
Variables (mean0 : X -> X) (mean : Q -> X -> X -> X).
Variables (prior0 : X -> R) (prior : X -> X -> Q -> R).
Variables (r0 : X -> R) (rt : X -> X -> Q -> R) (g0 : X -> X) (gt : X -> X -> Q -> X).
Variables (logH0 : pop -> X -> 'I_n -> R) (logH : Q -> pop -> pop -> X -> 'I_n -> R).
Variables (rs : resampler n) (mv : mover n).

Local Notation target := (path_target (fun x => prior0 x + r0 x) (fun x y q => prior x y q + rt x y q)).
Local Notation akern := (fun mv => atp_kernel noise0 ld0 noise ld scale0 scale pnoise0 pld0 pnoise pld mean0 mean prior0 prior r0 rt g0 gt rs mv).
Local Notation tkern := (fun mv => tp_kernel noise0 noise scale0 scale pnoise0 pnoise mean0 mean prior0 prior r0 rt g0 gt logH0 logH rs mv).

Definition proportional (l p : X -> R) : Prop := exists c, c != 0 /\ forall z, exp (l z) = c * p z.
Definition tp_correction0 : Prop := exists S : pop -> R, forall (x : pop) b phi,
  \sum_u noise0 (u - (x b + phi)) * \prod_(i | i != b) pnoise0 (x i - mean0 u)
  = S x * exp (logH0 x phi b).
Definition tp_correction : Prop := forall q (xm : pop), exists S : pop -> R, forall (x : pop) b phi,
  \sum_u noise q (u - (x b + phi)) * \prod_(i | i != b) pnoise q (x i - mean q (xm i) u)
  = S x * exp (logH q xm x phi b).

Lemma tp_inv key qs backward :
  prob_vec noise0 -> (forall q, prob_vec (noise q)) -> prob_vec pnoise0 -> (forall q, prob_vec (pnoise q)) ->
  good_resampler rs -> tp_correction0 -> tp_correction -> good_mover mv ->
  leaves_invariant (size qs) (target qs) (fun x0 xs b0 bs => drop_weights (tkern mv key x0 xs b0 bs qs backward)).
Proof. by move=> h1 h2 h3 h4 h5 h6 h7 gm; apply: (proj1 (tp_good scale0 scale prior0 prior r0 rt g0 gt mv h1 h2 h3 h4 h5 h6 h7 key qs backward)). Qed.

Lemma tp_near c key qs backward :
  prob_vec noise0 -> (forall q, prob_vec (noise q)) -> prob_vec pnoise0 -> (forall q, prob_vec (pnoise q)) ->
  good_resampler rs -> tp_correction0 -> tp_correction ->
  nearly_invariant (size qs) (target qs)
    (fun x0 xs b0 bs => drop_weights (tkern (@force_move _) key x0 xs b0 bs qs backward)) c (force_eps n c).
Proof.
move=> h1 h2 h3 h4 h5 h6 h7; apply: (proj2 (tp_good scale0 scale prior0 prior r0 rt g0 gt (@force_move _) h1 h2 h3 h4 h5 h6 h7 key qs backward)) => *.
exact: force_bound.
Qed.

Lemma atp_inv key qs backward :
  prob_vec noise0 -> (forall q, prob_vec (noise q)) -> prob_vec pnoise0 -> (forall q, prob_vec (pnoise q)) ->
  good_resampler rs -> proportional ld0 noise0 -> (forall q, proportional (ld q) (noise q)) ->
  proportional pld0 pnoise0 -> (forall q, proportional (pld q) (pnoise q)) -> good_mover mv ->
  leaves_invariant (size qs) (target qs) (fun x0 xs b0 bs => drop_weights (akern mv key x0 xs b0 bs qs backward)).
Proof. by move=> h1 h2 h3 h4 h5 h6 h7 h8 h9 gm; apply: (proj1 (atp_good scale0 scale mean0 mean prior0 prior r0 rt g0 gt mv h1 h2 h3 h4 h5 h6 h7 h8 h9 key qs backward)). Qed.

Lemma atp_near c key qs backward :
  prob_vec noise0 -> (forall q, prob_vec (noise q)) -> prob_vec pnoise0 -> (forall q, prob_vec (pnoise q)) ->
  good_resampler rs -> proportional ld0 noise0 -> (forall q, proportional (ld q) (noise q)) ->
  proportional pld0 pnoise0 -> (forall q, proportional (pld q) (pnoise q)) ->
  nearly_invariant (size qs) (target qs)
    (fun x0 xs b0 bs => drop_weights (akern (@force_move _) key x0 xs b0 bs qs backward)) c (force_eps n c).
Proof.
move=> h1 h2 h3 h4 h5 h6 h7 h8 h9; apply: (proj2 (atp_good scale0 scale mean0 mean prior0 prior r0 rt g0 gt (@force_move _) h1 h2 h3 h4 h5 h6 h7 h8 h9 key qs backward)) => *.
exact: force_bound.
Qed.

(** *** Shapes *)
Lemma normals_shape (Y : finType) key (nu0 : Y -> R) nus A (P : A -> Prop) (k : Y -> seq Y -> prog A) :
  (forall e0 es, size es = size nus -> always P (k e0 es)) ->
  always P (do (e0, es) <- normals key nu0 nus; k e0 es).
Proof.
move=> H; apply/always_bind.
by apply: always_imp (@normals_size Y key nu0 nus) => -[e0 es] /= sz; exact: H.
Qed.

Lemma kernel_shape P' Q' (md : model X n' P' Q') key x0 xs b0 bs ps qs backward : keeps rs ->
  size ps = size qs -> size bs = size qs -> size xs = size qs ->
  always (keeps_shape x0 xs b0 bs) (kernel rs mv md key x0 xs b0 bs ps qs backward true).
Proof.
move=> kp s1 s2 s3.
have H1 := @kernel_sizes X n' P' Q' md rs mv key x0 xs b0 bs ps qs backward true s1 s2 s3.
have H2 := @kernel_unchanged X n' P' Q' md rs mv key x0 xs b0 bs ps qs backward kp s1 s2 s3.
by apply: always_imp (always_and H1 H2) => r [[e1 e2] u]; split.
Qed.

Lemma tp_aux_size xm xs qs es : size xs = size qs -> size es = size qs -> size (tp_aux scale gt xm xs qs es) = size qs.
Proof. by elim: qs xm xs es => [|q qs IH] xm [|x xs] [|e es] //= [s1] [s2]; rewrite IH. Qed.

Lemma two_shape key x0 xs b0 bs qs backward : keeps rs ->
  size bs = size qs -> size xs = size qs ->
  always (keeps_shape x0 xs b0 bs) (akern mv key x0 xs b0 bs qs backward)
  /\ always (keeps_shape x0 xs b0 bs) (tkern mv key x0 xs b0 bs qs backward).
Proof.
move=> kp s2 s3; split; apply: normals_shape => e0 es; rewrite size_map => se;
  have su : size (tp_aux scale gt x0 xs qs es) = size qs by exact: tp_aux_size.
  by apply: kernel_shape; rewrite // size_zip su minnn.
by apply: kernel_shape; rewrite // size_zip su minnn.
Qed.

(** *** Keys *)
Lemma uses_two_part (Y : finType) A key i j nu0 (nus : seq (Y -> R)) (k : Y -> seq Y -> prog A) : i != j ->
  (forall e0 es, uses [:: split key j] (k e0 es)) ->
  uses [:: key] (do (e0, es) <- normals (split key i) nu0 nus; k e0 es).
Proof.
move=> ij H; apply: (@uses_root ([:: split key i] ++ [:: split key j])); first by rewrite /= !below_split.
by apply: uses_bind => [||[e0 es]]; [rewrite /allrel /= indep_split | exact: uses_normals | exact: H].
Qed.

Lemma uses_two key x0 xs b0 bs qs backward :
  (forall key w i j b, uses [:: key] (rs key w i j b)) -> (forall key w k, uses [:: key] (mv key w k)) ->
  uses [:: key] (akern mv key x0 xs b0 bs qs backward) /\ uses [:: key] (tkern mv key x0 xs b0 bs qs backward).
Proof.
move=> h1 h2; split; apply: (@uses_two_part _ _ _ _ 0%N) => // e0 es; apply: uses_kernel_spec => //.
1,3: by move=> k; apply: uses_ret_bind; exact: uses_draw.
all: by move=> k x p; apply: uses_ret_bind; exact: uses_draw.
Qed.
End Tp.

(** *** Examples: laws meeting the hypotheses *)
Section Example.
Variables (X : finZmodType) (n' : nat) (Q : Type) (ld pld : Q -> X -> R) (mean : Q -> X -> X -> X).
Local Notation pop := (pop X n').
Definition ex_tp_logH (q : Q) (xm x : pop) (phi : X) (b : 'I_n'.+1) : R :=
  ln (\sum_u ex_noise ld q (u - (x b + phi)) * \prod_(i | i != b) ex_noise pld q (x i - mean q (xm i) u)).

Lemma ex_tp_logH_ok : tp_correction (ex_noise ld) (ex_noise pld) mean ex_tp_logH.
Proof.
move=> q xm; exists (fun=> 1) => x b phi; rewrite mul1r /ex_tp_logH exp_ln //.
have pos u : 0 < ex_noise ld q (u - (x b + phi)) * \prod_(i | i != b) ex_noise pld q (x i - mean q (xm i) u).
  apply: mulr_gt0; first exact: ex_noise_gt0.
  by apply: prodr_gt0 => i _; exact: ex_noise_gt0.
apply/RltE; apply: (lt_le_trans (pos 0)).
by rewrite [leRHS](bigD1 0) //= ler_addl sumr_ge0 // => u _; exact: ltW.
Qed.
End Example.

(** *** The Gaussian correction *)
Section Link.
Variables (d N : nat) (U : 'M[R]_d) (G : 'rV[R]_d) (ell : R).
Hypotheses (UU : U *m U^T = 1%:M) (G0 : forall i, 0 < G 0 i) (l0 : 0 < ell).
Hypothesis clip : forall i, stable_zero <= G 0 i * (ell / 2%:R) / (G 0 i + ell / 2%:R).
Let p := get_proposal_params ell U G U^T.
Let K := K_1 p *m K_2 p.

Lemma K_sym : symmetric K.
Proof. by rewrite /symmetric /K /p KE !trmx_mul trmxK tr_diag_mx mulmxA. Qed.

Lemma K_pos : positive K.
Proof.
move=> v v0; rewrite /quad /K /p KE !mulmxA.
have -> : v^T *m U *m diag_mx (Kd G ell) *m U^T *m v = (U^T *m v)^T *m diag_mx (Kd G ell) *m (U^T *m v).
  by rewrite trmx_mul trmxK !mulmxA.
have w0 : U^T *m v != 0.
  apply: contra v0 => /eqP e; rewrite -[v](mul1mx) -UU -mulmxA e mulmx0 //.
move: (U^T *m v) w0 => w w0.
have [i wi] : exists i, w i 0 != 0.
  apply/existsP; apply: contraR w0 => /existsPn H; apply/eqP/colP => i; rewrite mxE.
  by apply/eqP; have := H i; rewrite negbK.
have k0 j : 0 < Kd G ell 0 j.
  by rewrite mxE divr_gt0 // addr_gt0 // divr_gt0 ?ltr0n.
move: (Kd G ell) k0 => kd k0; rewrite mul_mx_diag mxE (bigD1 i) //= ltr_paddr //.
  apply: sumr_ge0 => j _; rewrite !mxE mulrAC mulr_ge0 ?(ltW (k0 j)) //.
  by rewrite -expr2 sqr_ge0.
by rewrite !mxE mulrAC mulr_gt0 ?k0 // -expr2 exprn_even_gt0.
Qed.

Lemma tp_joint (xs ms phis : 'I_N.+1 -> 'cV[R]_d) n u :
  gauss_kernel (ell / 2%:R)%:M u (xs n + phis n)
    + \sum_(i | i != n) gauss_kernel (p_chol p *m (p_chol p)^T) (xs i) (prop_mean p u (ms i))
  = gauss_kernel (ell / 2%:R)%:M u (xs n + phis n)
    + \sum_(i | i != n) gauss_kernel ((ell / 2%:R) *: K) (xs i) ((ms i - K *m ms i) + K *m u).
Proof.
congr (_ + _); apply: eq_bigr => i _; rewrite /p cov_K //; congr gauss_kernel.
by rewrite /prop_mean mulmxA -/p -/K mulmxBr addrAC addrA.
Qed.

Lemma tp_marginal (xs ms : 'I_N.+1 -> 'cV[R]_d) :
  marginal_of
    (fun (r : 'I_N.+1 * 'cV[R]_d) u => gauss_kernel (ell / 2%:R)%:M u (xs r.1 + r.2)
       + \sum_(i | i != r.1) gauss_kernel (p_chol p *m (p_chol p)^T) (xs i) (prop_mean p u (ms i)))
    (fun r => get_log_H_bis xs (fun i => ms i - K *m ms i) K (p_K_inv p) ell
                (xs r.1) (ms r.1 - K *m ms r.1) r.2).
Proof.
have l2 : 0 < ell / 2%:R by rewrite divr_gt0 ?ltr0n.
have H1 : symmetric ((ell / 2%:R) *: K) by rewrite /symmetric linearZ /= K_sym.
have H2 : positive ((ell / 2%:R) *: K).
  by move=> v v0; rewrite /quad -scalemxAr -scalemxAl mxE mulr_gt0 // K_pos.
move=> I HI; have [c Hc] := @log_H_marg d N K ((ell / 2%:R) *: K) (ell / 2%:R)%:M xs (fun i => ms i - K *m ms i) H1 H2 (@l_sym d ell) (@l_pos d ell l0) I HI.
exists c => -[n phi]; rewrite /p K_invE // -/p -/K bis_is_general //; [|exact: K_sym|exact: K_pos].
by rewrite -(Hc (n, phi)); apply: (int_ext HI) => u; rewrite (tp_joint xs ms (fun=> phi)).
Qed.
End Link.
