(** * NanAtpProofs: atp_csmc_f.py on targets with zeros (C93). *)
From Coq Require Import Reals Lra FunctionalExtensionality.
From mathcomp Require Import all_ssreflect all_algebra.
From Verif Require Import RInst Prog ProgTheory Resampling Spec ResamplingProofs Csmc CsmcInvariance AuxCsmc SweepTheory AuxProofs.
From Verif Require Import TpCsmc TpProofs NanCsmc NanSpec NanNumbers NanProofs NanFinal NanRw NanRwProofs NanAl NanAlProofs NanAtp.

Set Implicit Arguments.
Unset Strict Implicit.
Unset Printing Implicit Defensive.
Import GRing.Theory Num.Theory Order.TTheory.
Local Open Scope ring_scope.

Lemma norm_log_sh_low n' (l : 'I_n'.+1 -> xnum) c : (forall i, low (l i)) ->
  xnormalize_log (sh l c) = xnormalize_log l.
Proof.
move=> lo; case: (low_cases lo) => [u|ni]; first exact: norm_log_sh.
apply: functional_extensionality => i; rewrite /xnormalize_log !lse_ninf //= /sh ?ni // => j; by rewrite ni.
Qed.

Section Atp.
Variables (X : finZmodType) (n' : nat) (Q : Type).
Local Notation n := n'.+1.
Local Notation pop := (pop X n').
Local Notation lwts := (xlwts n').
Variables (noise0 ld0 : X -> R) (noise ld : Q -> X -> R).
Variables (scale0 : X -> X) (scale : Q -> X -> X).
Variables (pnoise0 pld0 : X -> R) (pnoise pld : Q -> X -> R).
Variables (mean0 : X -> X) (mean : Q -> X -> X -> X).
Variables (prior0 : X -> R) (prior : X -> X -> Q -> R).
Variables (r0 : X -> xnum) (rt : X -> X -> Q -> xnum) (R0 : X -> R) (Rt : X -> X -> Q -> R).
Variables (g0 : X -> X) (gt : X -> X -> Q -> X) (rs : resampler n) (mv : mover n).
Variables (k0 p0 : R) (kn kp : Q -> R).
Hypotheses (noise0P : prob_vec noise0) (noiseP : forall q, prob_vec (noise q)).
Hypotheses (pnoise0P : prob_vec pnoise0) (pnoiseP : forall q, prob_vec (pnoise q)).
Hypotheses (ld0E : forall z, exp (ld0 z) = k0 * noise0 z) (ldE : forall q z, exp (ld q z) = kn q * noise q z).
Hypotheses (pld0E : forall z, exp (pld0 z) = p0 * pnoise0 z) (pldE : forall q z, exp (pld q z) = kp q * pnoise q z).
Hypotheses (r0_log : forall x, log_of (r0 x) (R0 x)) (rt_log : forall x y q, log_of (rt x y q) (Rt x y q)).
Hypothesis rs_good : good_resampler rs.
Local Notation so0 := (fun x => Some (g0 x)).
Local Notation sot := (fun x y q => Some (gt x y q)).
Local Notation md := (xatp_model n' ld0 ld scale0 scale pnoise0 pld0 pnoise pld mean0 mean prior0 prior r0 rt so0 sot).
Local Notation G0 := (fun x => exp (prior0 x) * R0 x).
Local Notation Gt := (fun x y q => exp (prior x y q) * Rt x y q).

Lemma law_pos (nu l : X -> R) (c : R) : prob_vec nu -> (forall z, exp (l z) = c * nu z) ->
  (forall z, 0 < nu z) /\ 0 < c.
Proof.
move=> [n0 _] e.
have pos z : 0 < nu z.
  rewrite lt0r n0 andbT; apply: contraTneq (expR_gt0 (l z)) => h; by rewrite e h mulr0 ltxx.
split=> //; have := expR_gt0 (l 0); rewrite e; have := pos 0.
by move: (nu 0) => b b0; rewrite pmulr_lgt0.
Qed.

Lemma law_ln (nu l : X -> R) (c : R) z : prob_vec nu -> (forall z, exp (l z) = c * nu z) -> l z = ln (nu z) + ln c.
Proof.
move=> p e; have [n0 c0] := law_pos p e.
by rewrite -[LHS]ln_exp e ln_mult; [rewrite addrC|apply/RltE|apply/RltE].
Qed.

Lemma log_prior a (r y : R) : log_of a y -> log_of (xadd (Fin r) a) (exp r * y).
Proof. by case: a => //= [s <-|->]; rewrite ?mulr0 // expRD. Qed.

Lemma log_mul a (y z : R) : 0 < z -> log_of a y -> log_of (xadd a (Fin (ln z))) (y * z).
Proof. by move=> z0; case: a => //= [s <-|->]; rewrite ?mul0r // expRD exp_ln //; apply/RltE. Qed.

(** ** The model of csmc.py given the auxiliary variables, with exact log-densities *)
Definition atp_given_model (u0 : X) : xmodel X n' (X * Q) (X * Q) :=
  XModel (atp_M0_rvs n' pnoise0 mean0 u0) (fun x i => Fin (ln (pnoise0 (x i - mean0 u0))))
    (fun x => xadd (xadd (Fin (prior0 x)) (r0 x)) (Fin (ln (noise0 (u0 - x - scale0 (g0 x))))))
    (atp_Mt_rvs pnoise mean) (fun xm x p i => Fin (ln (pnoise p.2 (x i - mean p.2 (xm i) p.1))))
    (fun x y p => xadd (xadd (Fin (prior x y p.2)) (rt x y p.2)) (Fin (ln (noise p.2 (p.1 - y - scale p.2 (gt x y p.2)))))).

Definition At0 (u0 x : X) : R := G0 x * noise0 (u0 - x - scale0 (g0 x)).
Definition Att (x y : X) (p : X * Q) : R := Gt x y p.2 * noise p.2 (p.1 - y - scale p.2 (gt x y p.2)).

Lemma atp_given_ok u0 : markov_zeros (atp_given_model u0) (fun x => pnoise0 (x - mean0 u0))
  (fun x p y => pnoise p.2 (y - mean p.2 x p.1)) (At0 u0) Att.
Proof.
have n0 := (law_pos noise0P ld0E).1; have nt q := (law_pos (noiseP q) (ldE q)).1.
have q0 := (law_pos pnoise0P pld0E).1; have qt q := (law_pos (pnoiseP q) (pldE q)).1.
split=> /=.
- split=> //.
  + by move=> key; exact: M0_indep.
  + by move=> x i /=; rewrite exp_ln //; apply/RltE.
  + by move=> x; apply: log_mul => //; exact: log_prior.
  + by move=> x _; exact: lt0r_neq0.
- by move=> key xm p; exact: Mt_indep.
- by move=> xm xt p i /=; rewrite exp_ln //; apply/RltE.
- by move=> x y q; apply: log_mul => //; exact: log_prior.
- by move=> x y p q _; exact: lt0r_neq0.
Qed.

Lemma atp_lw0 u0 x : xlog_w0 (md u0) x = xlog_w0 (atp_given_model u0) x.
Proof.
pose l i := xsub (xGamma0 (atp_given_model u0) (x i)) (xM0_logpdf (atp_given_model u0) x i).
rewrite /xlog_w0 -/l /=.
have lo i : low (l i).
  by rewrite /l /=; have [_] := log_dens (r0_log (x i)); case: (r0 (x i)).
rewrite -[RHS](norm_log_sh_low (ln k0 - ln p0)) //; congr xnormalize_log.
apply: functional_extensionality => i; rewrite /sh /l /xatp_Gamma_0 /atp_M0_logpdf.
rewrite /= (law_ln _ noise0P ld0E) (law_ln _ pnoise0P pld0E).
by case: (r0 (x i)) => //= a; congr Fin; Rring.
Qed.

Lemma atp_lwt u0 xm xt p q : xlog_wt (md u0) xm xt p q = xlog_wt (atp_given_model u0) xm xt p q.
Proof.
pose l i := xsub (xGammat (atp_given_model u0) (xm i) (xt i) q) (xMt_logpdf (atp_given_model u0) xm xt p i).
rewrite /xlog_wt -/l /=.
have lo i : low (l i).
  by rewrite /l /=; have [_] := log_dens (rt_log (xm i) (xt i) q.2); case: (rt _ _ _).
rewrite -[RHS](norm_log_sh_low (ln (kn q.2) - ln (kp p.2))) //; congr xnormalize_log.
apply: functional_extensionality => i; rewrite /sh /l /xatp_Gamma_t /atp_Mt_logpdf.
rewrite /= (law_ln _ (noiseP _) (ldE _)) (law_ln _ (pnoiseP _) (pldE _)).
by case: (rt _ _ _) => //= a; congr Fin; Rring.
Qed.

Lemma atp_bw u0 x (xm : pop) lw q :
  xbwd_weights (xGammat (md u0)) x xm lw q = xbwd_weights (xGammat (atp_given_model u0)) x xm lw q.
Proof.
pose g l := xGammat (atp_given_model u0) (xm l) x q.
rewrite /xbwd_weights; congr xnormalize; apply: functional_extensionality => i; congr xadd.
rewrite -/(g i) -/g /=.
have e : (fun l => xatp_Gamma_t ld scale prior rt sot (xm l) x q) = sh g (ln (kn q.2)).
  apply: functional_extensionality => j; rewrite /sh /g /xatp_Gamma_t /= (law_ln _ (noiseP _) (ldE _)).
  by case: (rt _ _ _) => //= a; congr Fin; Rring.
have := congr1 (fun h => h i) (minus_sh g (ln (kn q.2))); rewrite -e => ->.
by [].
Qed.

Lemma atp_same u0 key x0 xs b0 bs ps qs backward :
  xkernel rs mv (md u0) key x0 xs b0 bs ps qs backward true
  = xkernel rs mv (atp_given_model u0) key x0 xs b0 bs ps qs backward true.
Proof.
have e1 : xlog_w0 (md u0) = xlog_w0 (atp_given_model u0) by apply: functional_extensionality => x; exact: atp_lw0.
have e2 : xlog_wt (md u0) = xlog_wt (atp_given_model u0).
  by do 4 (apply: functional_extensionality => ?); exact: atp_lwt.
have e3 : @xbwd_weights X n' _ (xGammat (md u0)) = xbwd_weights (xGammat (atp_given_model u0)).
  by do 4 (apply: functional_extensionality => ?); exact: atp_bw.
rewrite /xkernel /xforward_pass /xfwd_body /xbackward_sampling_pass /xbwd_body.
by rewrite e1 e2 e3.
Qed.

(** ** Summing over the auxiliary variables *)
Local Notation ker := (xatp_kernel noise0 ld0 noise ld scale0 scale pnoise0 pld0 pnoise pld mean0 mean prior0 prior r0 rt so0 sot rs mv).
Definition atp_given (key : key) x0 xs b0 bs u0 us qs backward :=
  odrop (xkernel rs mv (atp_given_model u0) (split key 0) x0 xs b0 bs (zip us qs) (zip us qs) backward true).
Local Notation law := (al_law noise scale gt).

Lemma atp_E key x0 xs b0 bs qs backward f : size xs = size qs ->
  E (odrop (ker key x0 xs b0 bs qs backward)) f
  = \sum_u0 \sum_(us : (size qs).-tuple X) noise0 (u0 - x0 - scale0 (g0 x0)) * law x0 xs qs qs us
      * E (atp_given key x0 xs b0 bs u0 us qs backward) f.
Proof.
move=> s1; rewrite /odrop E_bind /xatp_kernel E_bind E_normals.
transitivity (\sum_e0 noise0 e0 * lsum [seq noise q | q <- qs] (fun es =>
   E (atp_given key x0 xs b0 bs (x0 + scale0 (g0 x0) + e0) (grad_aux scale gt x0 xs qs qs es) qs backward) f)).
  apply: eq_bigr => e0 _; congr (_ * _); apply: eq_lsum => es.
  by rewrite /xatp_aux xgrad_auxE atp_same /atp_given /odrop E_bind.
rewrite (eq_bigr (fun e0 => noise0 e0 * (\sum_(us : (size qs).-tuple X) law x0 xs qs qs us *
     E (atp_given key x0 xs b0 bs (x0 + scale0 (g0 x0) + e0) us qs backward) f))); last first.
  move=> e0 _; congr (_ * _).
  exact: (@lsum_al _ _ _ noise scale gt x0 xs qs qs (size qs) (fun us => E (atp_given key x0 xs b0 bs (x0 + scale0 (g0 x0) + e0) us qs backward) f)).
rewrite (sum_shift _ _ (fun u0 => \sum_(us : (size qs).-tuple X) law x0 xs qs qs us *
     E (atp_given key x0 xs b0 bs u0 us qs backward) f)).
by apply: eq_bigr => u0 _; rewrite mulr_sumr; apply: eq_bigr => us _; rewrite mulrA opprD addrA.
Qed.

Lemma atp_given_target qs u0 us x0 xs : size us = size qs -> size xs = size qs ->
  pot_target (At0 u0) Att (zip us qs) x0 xs
  = pot_target G0 Gt qs x0 xs * (noise0 (u0 - x0 - scale0 (g0 x0)) * law x0 xs qs qs us).
Proof.
move=> s2 s3; rewrite /pot_target.
have -> : pot_path Att x0 xs (zip us qs) = pot_path Gt x0 xs qs * law x0 xs qs qs us.
  elim: qs us xs x0 s2 s3 => [|q qs IH] [|u us] [|x xs] x0 //=; first by rewrite mul1r.
  move=> [s2] [s3]; rewrite IH // /Att /=; move: (_ * Rt _ _ _) (noise _ _) (pot_path _ _ _ _) (al_law _ _ _ _ _ _ _ _) => a b c d; by Rring.
rewrite /At0; move: (_ * R0 _) (noise0 _) (pot_path _ _ _ _) (al_law _ _ _ _ _ _ _ _) => a b c d; by Rring.
Qed.

Lemma atp_shift_prob x : \sum_u noise0 (u - x - scale0 (g0 x)) = 1.
Proof.
rewrite -(proj2 (shift_vec (x + scale0 (g0 x)) noise0P)); apply: eq_bigr => u _; by rewrite opprD addrA.
Qed.

Lemma atp_zip (qs : seq Q) (us : (size qs).-tuple X) : size (zip us qs) = size qs.
Proof. by rewrite size_zip size_tuple minnn. Qed.

Theorem atp_invariant key qs backward : good_mover mv ->
  leaves_invariant_result (size qs) (pot_target G0 Gt qs)
    (fun x0 xs b0 bs => odrop (ker key x0 xs b0 bs qs backward)).
Proof.
move=> mg f.
pose T u0 us := pot_target (At0 u0) Att (zip us qs).
transitivity (\sum_u0 \sum_(us : (size qs).-tuple X) traj_sum (size qs) (fun x0 xs b0 bs =>
   T u0 us x0 xs * E (atp_given key x0 xs b0 bs u0 us qs backward) f)).
  under [RHS]eq_bigr do rewrite -traj_sum_exchange.
  rewrite -traj_sum_exchange.
  apply: eq_bigr => x0 _; apply: eq_bigr => b0 _; apply: eq_bigr => xs _; apply: eq_bigr => bs _.
  rewrite atp_E ?size_tuple // mulr_sumr; apply: eq_bigr => u0 _; rewrite mulr_sumr.
  by apply: eq_bigr => us _; rewrite /T atp_given_target ?size_tuple // mulrA.
transitivity (\sum_u0 \sum_(us : (size qs).-tuple X) traj_sum (size qs) (fun x0 xs b0 bs =>
   T u0 us x0 xs * f (Some (x0 :: xs, b0 :: bs)))).
  apply: eq_bigr => u0 _; apply: eq_bigr => us _.
  have := nan_invariant (atp_given_ok u0) rs_good (split key 0) backward mg (erefl (size (zip us qs))) f.
  by rewrite atp_zip.
under eq_bigr do rewrite -traj_sum_exchange.
rewrite -traj_sum_exchange.
apply: eq_bigr => x0 _; apply: eq_bigr => b0 _; apply: eq_bigr => xs _; apply: eq_bigr => bs _.
transitivity (\sum_u0 \sum_(us : (size qs).-tuple X) pot_target G0 Gt qs x0 xs * f (Some (x0 :: tval xs, b0 :: tval bs)) *
     (noise0 (u0 - x0 - scale0 (g0 x0)) * law x0 xs qs qs us)).
  apply: eq_bigr => u0 _; apply: eq_bigr => us _.
  by rewrite /T atp_given_target ?size_tuple // mulrAC.
rewrite -[RHS]mulr1 -[X in _ = _ * X](atp_shift_prob x0) mulr_sumr; apply: eq_bigr => u0 _.
by rewrite -mulr_sumr; congr (_ * _); rewrite -mulr_sumr al_law_sum ?size_tuple ?mulr1.
Qed.

End Atp.
