(** * NanTwistedInv: t_atp_csmc_f.py leaves targets with zeros invariant when its proposals together are the prior
    times the densities of the auxiliary variables (C95). *)
From Coq Require Import Reals Lra FunctionalExtensionality.
From mathcomp Require Import all_ssreflect all_algebra.
From Verif Require Import RInst Prog ProgTheory Resampling Spec ResamplingProofs Csmc CsmcInvariance AuxCsmc SweepTheory AuxProofs AuxFinal.
From Verif Require Import TpCsmc TpProofs TpFinal Twisted TwistedKernel NanCsmc NanSpec NanNumbers NanProofs NanFinal NanRw NanRwProofs.
From Verif Require Import NanAl NanAlProofs NanAtp NanAtpProofs NanTwisted.

Set Implicit Arguments.
Unset Strict Implicit.
Unset Printing Implicit Defensive.
Import GRing.Theory Num.Theory Order.TTheory.
Local Open Scope ring_scope.

Section Invariant.
Variables (X : finZmodType) (n' : nat) (Q W : Type).
Local Notation n := n'.+1.
Local Notation pop := (pop X n').
Variables (noise0 ld0 : X -> R) (noise ld : Q -> X -> R).
Variables (scale0 : X -> X) (scale : Q -> X -> X).
Variable tparams : X -> seq X -> W * seq W.
Variables (law0 lpdf0 : W -> X -> R) (law lpdf : W -> X -> X -> R).
Variables (prior0 : X -> R) (prior : X -> X -> Q -> R).
Variables (r0 : X -> xnum) (rt : X -> X -> Q -> xnum) (R0 : X -> R) (Rt : X -> X -> Q -> R).
Variables (g0 : X -> X) (gt : X -> X -> Q -> X) (rs : resampler n) (mv : mover n).
Variables (k0 : R) (kn : Q -> R) (c0 ct : W -> R).
Hypotheses (noise0P : prob_vec noise0) (noiseP : forall q, prob_vec (noise q)).
Hypotheses (law0P : forall w, prob_vec (law0 w)) (lawP : forall w x, prob_vec (law w x)).
Hypotheses (ld0E : forall z, exp (ld0 z) = k0 * noise0 z) (ldE : forall q z, exp (ld q z) = kn q * noise q z).
Hypotheses (lpdf0E : forall w z, exp (lpdf0 w z) = c0 w * law0 w z)
  (lpdfE : forall w x z, exp (lpdf w x z) = ct w * law w x z).
Hypotheses (r0_log : forall x, log_of (r0 x) (R0 x)) (rt_log : forall x y q, log_of (rt x y q) (Rt x y q)).
Hypothesis rs_good : good_resampler rs.
Local Notation so0 := (fun x => Some (g0 x)).
Local Notation sot := (fun x y q => Some (gt x y q)).
Local Notation md := (xtw_model n' ld0 ld scale0 scale law0 lpdf0 law lpdf r0 rt so0 sot).
Local Notation G0 := (fun x => exp (prior0 x) * R0 x).
Local Notation Gt := (fun x y q => exp (prior x y q) * Rt x y q).

(** ** The model of csmc.py given the auxiliary variables, with exact log-densities *)
Definition tw_given_model (w0 : W) (u0 : X) : xmodel X n' W (X * Q * W) :=
  XModel (tw_M0_rvs n' law0 w0) (fun x i => Fin (ln (law0 w0 (x i)))) (xGamma0 (md w0 u0))
    (tw_Mt_rvs law) (fun xm x w i => Fin (ln (law w (xm i) (x i)))) (xGammat (md w0 u0)).

Definition Tw0 (w : W) (u x : X) : R := R0 x * exp (ld0 (u - x - scale0 (g0 x)) - ld0 (u - x) + lpdf0 w x).
Definition Twt (x y : X) (p : X * Q * W) : R :=
  Rt x y p.1.2 * exp (ld p.1.2 (p.1.1 - y - scale p.1.2 (gt x y p.1.2)) - ld p.1.2 (p.1.1 - y) + lpdf p.2 x y).

Lemma log_add a (y r : R) : log_of a y -> log_of (xadd a (Fin r)) (y * exp r).
Proof. by case: a => //= [s <-|->]; rewrite ?mul0r // expRD. Qed.

Lemma tw_given_ok w0 u0 : markov_zeros (tw_given_model w0 u0) (law0 w0) (fun x w => law w x) (Tw0 w0 u0) Twt.
Proof.
have q0 w := (law_pos (law0P w) (lpdf0E w)).1; have qt w x := (law_pos (lawP w x) (lpdfE w x)).1.
split=> /=.
- split=> //.
  + by move=> key; exact: tw_M0_indep.
  + by move=> x i /=; rewrite exp_ln //; apply/RltE.
  + by move=> x; exact: log_add.
  + by move=> x _; exact: lt0r_neq0.
- by move=> key xm p; exact: tw_Mt_indep.
- by move=> xm xt p i /=; rewrite exp_ln //; apply/RltE.
- by move=> x y [[u q] w]; exact: log_add.
- by move=> x y p q _; exact: lt0r_neq0.
Qed.

Lemma tw_lw0 w0 u0 x : xlog_w0 (md w0 u0) x = xlog_w0 (tw_given_model w0 u0) x.
Proof.
pose l i := xsub (xGamma0 (tw_given_model w0 u0) (x i)) (xM0_logpdf (tw_given_model w0 u0) x i).
rewrite /xlog_w0 -/l /=.
have lo i : low (l i).
  by rewrite /l /= /xtw_Gamma_0; have [_] := log_dens (r0_log (x i)); case: (r0 (x i)).
rewrite -[RHS](norm_log_sh_low (- ln (c0 w0))) //; congr xnormalize_log.
apply: functional_extensionality => i; rewrite /sh /l /= /xtw_Gamma_0 /tw_M0_logpdf.
rewrite [X in xsub _ (Fin X)](law_ln _ (law0P w0) (lpdf0E w0)).
by case: (r0 (x i)) => //= a; congr Fin; Rring.
Qed.

Lemma tw_lwt w0 u0 xm xt p q : xlog_wt (md w0 u0) xm xt p q = xlog_wt (tw_given_model w0 u0) xm xt p q.
Proof.
pose l i := xsub (xGammat (tw_given_model w0 u0) (xm i) (xt i) q) (xMt_logpdf (tw_given_model w0 u0) xm xt p i).
rewrite /xlog_wt -/l /=.
have lo i : low (l i).
  by case: q @l => [[u q] w] /=; have [_] := log_dens (rt_log (xm i) (xt i) q); case: (rt _ _ _).
rewrite -[RHS](norm_log_sh_low (- ln (ct p))) //; congr xnormalize_log.
apply: functional_extensionality => i; rewrite /sh /l /= /tw_Mt_logpdf.
rewrite [X in xsub _ (Fin X)](law_ln _ (lawP p (xm i)) (lpdfE p (xm i))).
case: q @l lo => [[u q] w] l lo; rewrite /xtw_Gamma_t.
by case: (rt _ _ _) => //= a; congr Fin; Rring.
Qed.

Lemma tw_same w0 u0 key x0 xs b0 bs ps qs backward :
  xkernel rs mv (md w0 u0) key x0 xs b0 bs ps qs backward true
  = xkernel rs mv (tw_given_model w0 u0) key x0 xs b0 bs ps qs backward true.
Proof.
have e1 : xlog_w0 (md w0 u0) = xlog_w0 (tw_given_model w0 u0) by apply: functional_extensionality => x; exact: tw_lw0.
have e2 : xlog_wt (md w0 u0) = xlog_wt (tw_given_model w0 u0).
  by do 4 (apply: functional_extensionality => ?); exact: tw_lwt.
rewrite /xkernel /xforward_pass /xfwd_body /xbackward_sampling_pass /xbwd_body.
by rewrite e1 e2.
Qed.

(** ** Summing over the auxiliary variables *)
Local Notation ker := (xtw_kernel noise0 ld0 noise ld scale0 scale tparams law0 lpdf0 law lpdf r0 rt so0 sot rs mv).
Definition tw_given (key : key) x0 xs b0 bs u0 us qs backward :=
  odrop (xkernel rs mv (tw_given_model (tparams u0 us).1 u0) (split key 0) x0 xs b0 bs
    (tparams u0 us).2 (zip (zip us qs) (tparams u0 us).2) backward true).
Local Notation alaw := (al_law noise scale gt).

Lemma tw_E key x0 xs b0 bs qs backward f : size xs = size qs ->
  E (odrop (ker key x0 xs b0 bs qs backward)) f
  = \sum_u0 \sum_(us : (size qs).-tuple X) noise0 (u0 - x0 - scale0 (g0 x0)) * alaw x0 xs qs qs us
      * E (tw_given key x0 xs b0 bs u0 us qs backward) f.
Proof.
move=> s1; rewrite /odrop E_bind /xtw_kernel E_bind E_normals.
transitivity (\sum_e0 noise0 e0 * lsum [seq noise q | q <- qs] (fun es =>
   E (tw_given key x0 xs b0 bs (x0 + scale0 (g0 x0) + e0) (grad_aux scale gt x0 xs qs qs es) qs backward) f)).
  apply: eq_bigr => e0 _; congr (_ * _); apply: eq_lsum => es.
  rewrite /xatp_aux xgrad_auxE /tw_given; case: (tparams _ _) => w0 ws.
  by rewrite tw_same /odrop E_bind.
rewrite (eq_bigr (fun e0 => noise0 e0 * (\sum_(us : (size qs).-tuple X) alaw x0 xs qs qs us *
     E (tw_given key x0 xs b0 bs (x0 + scale0 (g0 x0) + e0) us qs backward) f))); last first.
  move=> e0 _; congr (_ * _).
  exact: (@lsum_al _ _ _ noise scale gt x0 xs qs qs (size qs) (fun us => E (tw_given key x0 xs b0 bs (x0 + scale0 (g0 x0) + e0) us qs backward) f)).
rewrite (sum_shift _ _ (fun u0 => \sum_(us : (size qs).-tuple X) alaw x0 xs qs qs us *
     E (tw_given key x0 xs b0 bs u0 us qs backward) f)).
by apply: eq_bigr => u0 _; rewrite mulr_sumr; apply: eq_bigr => us _; rewrite mulrA opprD addrA.
Qed.

Local Notation L := (fun (_ y : X) (uq : X * Q) => ld uq.2 (uq.1 - y)).

Lemma tw_pot_path x0 xs qs us ws : size us = size qs -> size ws = size qs -> size xs = size qs ->
  pot_path Twt x0 xs (zip (zip us qs) ws) * exp (log_path prior x0 xs qs + log_path L x0 xs (zip us qs))
  = pot_path Gt x0 xs qs * alaw x0 xs qs qs us * (\prod_(q <- qs) kn q) * exp (log_path (fun x y w => lpdf w x y) x0 xs ws).
Proof.
elim: qs x0 xs us ws => [|q qs IH] x0 [|x xs] [|u us] [|w ws] //=.
  by move=> *; rewrite big_nil addr0 !mul1r.
move=> [s1] [s2] [s3]; have := IH x xs us ws s1 s2 s3; rewrite big_cons.
move: (log_path prior x xs qs) (log_path L x xs (zip us qs)) (log_path (fun x y w => lpdf w x y) x xs ws) (pot_path Twt x xs (zip (zip us qs) ws)) (pot_path Gt x xs qs) (alaw x xs qs qs us) (\prod_(q <- qs) kn q).
move=> a b c p g l k e; rewrite /Twt /=.
rewrite (_ : prior x0 x q + a + (ld q (u - x) + b) = prior x0 x q + (ld q (u - x) + (a + b))); last by Rring.
rewrite (expRD (_ - _)) (expRD (ld q _) (- _)) ldE (expRD (prior _ _ _)) (expRD (ld q _)) (expRD (lpdf _ _ _)).
have yi : exp (- ld q (u - x)) * exp (ld q (u - x)) = 1 by rewrite -expRD addNr exp_0.
move: e yi; move: (exp (- _)) (exp (ld _ _)) (exp (a + b)) => i y z e yi.
transitivity (Rt x0 x q * (kn q * noise q (u - x - scale q (gt x0 x q))) * exp (lpdf w x0 x) * exp (prior x0 x q) * (i * y) * (p * z)).
  by Rring.
by rewrite yi e; Rring.
Qed.

Lemma kn_pos qs : 0 < \prod_(q <- qs) kn q.
Proof. by apply: prodr_gt0 => q _; exact: (law_pos (noiseP q) (ldE q)).2. Qed.

Lemma tw_given_target qs : tw_factor ld0 ld tparams lpdf0 lpdf prior0 prior qs ->
  forall u : X * (size qs).-tuple X, size (tparams u.1 u.2).2 = size qs /\
  exists k, forall x0 xs, size xs = size qs ->
    pot_target G0 Gt qs x0 xs * (noise0 (u.1 - x0 - scale0 (g0 x0)) * alaw x0 xs qs qs u.2)
    = k * pot_target (Tw0 (tparams u.1 u.2).1 u.1) Twt (zip (zip u.2 qs) (tparams u.1 u.2).2) x0 xs.
Proof.
move=> fac [u0 us] /=; have := fac u0 us (size_tuple _); case: (tparams u0 us) => w0 ws /= [sw [k Hk]].
split=> //; exists (exp k * (k0 * \prod_(q <- qs) kn q))^-1 => x0 xs sx.
have kp := kn_pos qs; have k0p : 0 < k0 by exact: (law_pos noise0P ld0E).2.
have K0 : exp k * (k0 * \prod_(q <- qs) kn q) != 0.
  by apply: lt0r_neq0; apply: mulr_gt0; [exact: expR_gt0|exact: mulr_gt0].
apply: (mulfI K0); rewrite [RHS]mulrA mulfV // mul1r.
set B := prior0 x0 + log_path prior x0 xs qs + (ld0 (u0 - x0) + log_path L x0 xs (zip us qs)).
have B0 : exp B != 0 by exact/lt0r_neq0/expR_gt0.
apply: (mulfI B0).
have := tw_pot_path x0 (size_tuple us) sw sx; have := Hk x0 xs sx.
rewrite /pot_target /Tw0 /B.
move: (log_path prior x0 xs qs) (log_path L x0 xs (zip us qs)) (log_path (fun x y w => lpdf w x y) x0 xs ws) (pot_path Twt x0 xs (zip (zip us qs) ws)) (pot_path Gt x0 xs qs) (alaw x0 xs qs qs us) (\prod_(q <- qs) kn q).
move=> a b c p g l kk ec ep.
have -> : exp (prior0 x0 + a + (ld0 (u0 - x0) + b)) * (R0 x0 * exp (ld0 (u0 - x0 - scale0 (g0 x0)) - ld0 (u0 - x0) + lpdf0 w0 x0) * p)
   = R0 x0 * exp (prior0 x0) * exp (ld0 (u0 - x0 - scale0 (g0 x0))) * exp (lpdf0 w0 x0) * (p * exp (a + b)) * (exp (ld0 (u0 - x0)) * exp (- ld0 (u0 - x0))).
  by rewrite !expRD; Rring.
rewrite -[exp (ld0 (u0 - x0)) * _]expRD subrr exp_0 mulr1 ep ld0E.
have e2 : exp (lpdf0 w0 x0) * exp c = exp k * exp (prior0 x0 + a + (ld0 (u0 - x0) + b)).
  by rewrite -!expRD ec; congr exp; Rring.
transitivity (R0 x0 * exp (prior0 x0) * (k0 * noise0 (u0 - x0 - scale0 (g0 x0))) * (g * l * kk) * (exp (lpdf0 w0 x0) * exp c)).
  by rewrite e2; Rring.
by Rring.
Qed.

Lemma tw_shift_prob x : \sum_u noise0 (u - x - scale0 (g0 x)) = 1.
Proof.
rewrite -(proj2 (shift_vec (x + scale0 (g0 x)) noise0P)); apply: eq_bigr => u _; by rewrite opprD addrA.
Qed.

Theorem tw_zeros_invariant key qs backward : good_mover mv -> tw_factor ld0 ld tparams lpdf0 lpdf prior0 prior qs ->
  leaves_invariant_result (size qs) (pot_target G0 Gt qs)
    (fun x0 xs b0 bs => odrop (ker key x0 xs b0 bs qs backward)).
Proof.
move=> mg fac f.
have kk := tw_given_target fac.
have [k kP] : exists k : X * (size qs).-tuple X -> R, forall (u : X * (size qs).-tuple X) x0 xs, size xs = size qs ->
    pot_target G0 Gt qs x0 xs * (noise0 (u.1 - x0 - scale0 (g0 x0)) * alaw x0 xs qs qs u.2)
    = k u * pot_target (Tw0 (tparams u.1 u.2).1 u.1) Twt (zip (zip u.2 qs) (tparams u.1 u.2).2) x0 xs.
  exact: fin_all_exists (fun u => proj2 (kk u)).
pose T u0 (us : (size qs).-tuple X) x0 xs := k (u0, us) * pot_target (Tw0 (tparams u0 us).1 u0) Twt (zip (zip us qs) (tparams u0 us).2) x0 xs.
have TE u0 (us : (size qs).-tuple X) x0 xs : size xs = size qs ->
    pot_target G0 Gt qs x0 xs * (noise0 (u0 - x0 - scale0 (g0 x0)) * alaw x0 xs qs qs us) = T u0 us x0 xs.
  exact: (kP (u0, us)).
transitivity (\sum_u0 \sum_(us : (size qs).-tuple X) traj_sum (size qs) (fun x0 xs b0 bs =>
   T u0 us x0 xs * E (tw_given key x0 xs b0 bs u0 us qs backward) f)).
  under [RHS]eq_bigr do rewrite -traj_sum_exchange.
  rewrite -traj_sum_exchange.
  apply: eq_bigr => x0 _; apply: eq_bigr => b0 _; apply: eq_bigr => xs _; apply: eq_bigr => bs _.
  rewrite tw_E ?size_tuple // mulr_sumr; apply: eq_bigr => u0 _; rewrite mulr_sumr.
  by apply: eq_bigr => us _; rewrite -TE ?size_tuple // mulrA.
transitivity (\sum_u0 \sum_(us : (size qs).-tuple X) traj_sum (size qs) (fun x0 xs b0 bs =>
   T u0 us x0 xs * f (Some (x0 :: xs, b0 :: bs)))).
  apply: eq_bigr => u0 _; apply: eq_bigr => us _.
  have [sw _] := kk (u0, us); simpl in sw.
  have sz : size (zip (zip us qs) (tparams u0 us).2) = size qs by rewrite !size_zip size_tuple sw !minnn.
  have s2 : size (tparams u0 us).2 = size (zip (zip us qs) (tparams u0 us).2) by rewrite sz.
  have := nan_invariant (tw_given_ok (tparams u0 us).1 u0) rs_good (split key 0) backward mg s2 f.
  rewrite sz => /(congr1 (fun v => k (u0, us) * v)).
  have st (F : X -> seq X -> 'I_n -> seq 'I_n -> R) :
      traj_sum (size qs) (fun x0 xs b0 bs => T u0 us x0 xs * F x0 xs b0 bs)
      = k (u0, us) * traj_sum (size qs) (fun x0 xs b0 bs =>
          pot_target (Tw0 (tparams u0 us).1 u0) Twt (zip (zip us qs) (tparams u0 us).2) x0 xs * F x0 xs b0 bs).
    rewrite -traj_sum_scale /traj_sum.
    by do 4 (apply: eq_bigr => ? _); rewrite /T mulrA.
  by rewrite !st.
under eq_bigr do rewrite -traj_sum_exchange.
rewrite -traj_sum_exchange.
apply: eq_bigr => x0 _; apply: eq_bigr => b0 _; apply: eq_bigr => xs _; apply: eq_bigr => bs _.
transitivity (\sum_u0 \sum_(us : (size qs).-tuple X) pot_target G0 Gt qs x0 xs * f (Some (x0 :: tval xs, b0 :: tval bs)) *
     (noise0 (u0 - x0 - scale0 (g0 x0)) * alaw x0 xs qs qs us)).
  apply: eq_bigr => u0 _; apply: eq_bigr => us _.
  by rewrite -TE ?size_tuple // mulrAC.
rewrite -[RHS]mulr1 -[X in _ = _ * X](tw_shift_prob x0) mulr_sumr; apply: eq_bigr => u0 _.
by rewrite -mulr_sumr; congr (_ * _); rewrite -mulr_sumr al_law_sum ?size_tuple ?mulr1.
Qed.

End Invariant.

(** Laws meeting the hypotheses. *)
Lemma tw_zeros_met (X : finZmodType) (Q : Type) (pl : Q -> X -> R) (q0 : Q) (qs : seq Q) :
  let R0 := fun x : X => (x == 0)%:R : R in
  let Rt := fun (x y : X) (_ : Q) => (x == y)%:R : R in
  let r0 := fun x => if x == 0 then Fin 0 else NInf in
  let rt := fun (x y : X) (_ : Q) => if x == y then Fin 0 else NInf in
  let flat := fun _ : X => (#|X|%:R)^-1 : R in
  let law0 := fun w (z : X) => exp (pl w z) / (\sum_z exp (pl w z)) in
  [/\ [/\ prob_vec flat, forall z, 0 < flat z & forall z, exp ((fun=> 0) z) = #|X|%:R * flat z],
      [/\ forall w, prob_vec (law0 w), forall w z, 0 < law0 w z, forall w (x : X), prob_vec (fun z => law0 w (z - x))
         & forall w z, exp (pl w z) = (\sum_z exp (pl w z)) * law0 w z],
      (forall x, log_of (r0 x) (R0 x)) /\ (forall x y q, log_of (rt x y q) (Rt x y q)),
      0 < pot_target R0 Rt qs 0 (nseq (size qs) 0)
    & tw_factor (fun=> 0) (fun _ _ => 0) (fun _ _ => (q0, qs)) pl (fun w x y => pl w (y - x))
        (pl q0) (fun x y q => pl q (y - x)) qs].
Proof.
move=> R0 Rt r0 rt flat law0.
have c0 : (0 : R) < #|X|%:R by rewrite ltr0n; apply/card_gt0P; exists 0.
have cN : (#|X|%:R : R) != 0 by exact: lt0r_neq0.
have pv w : prob_vec (law0 w) by exact: (ex_noise_prob pl w).
split.
- split.
  + split=> [z|]; first by rewrite /flat invr_ge0 ltW.
    by rewrite /flat sumr_const -[LHS]mulr_natr mulVf.
  + by move=> z; rewrite /flat invr_gt0.
  + by move=> z; rewrite /flat exp_0 mulfV.
- split=> //.
  + exact: (ex_noise_gt0 pl).
  + by move=> w x; exact: shift_vec.
  + by move=> w z; rewrite /law0 mulrCA divff ?mulr1 // lt0r_neq0 ?ex_total.
- by split=> [x|x y q]; rewrite /r0 /rt /R0 /Rt; case: eqP => //= _; rewrite exp_0.
- rewrite /pot_target; apply: mulr_gt0; first by rewrite /R0 eqxx ltr01.
  by elim: qs => [|q l IH] /=; rewrite ?ltr01 // /Rt eqxx mul1r.
- exact: ex_tw_factor.
Qed.
