(** * TwistedKernel: invariance, keys and shapes for the kernel of t_atp_csmc_f.py. *)
From Coq Require Import Reals Lra.
From mathcomp Require Import all_ssreflect all_algebra.
From Verif Require Import RInst Prog ProgTheory Resampling Spec ResamplingProofs.
From Verif Require Import KillingProofs MoveProofs ResamplingSpecs Csmc SmcTheory BackwardProofs.
From Verif Require Import CsmcInvariance CsmcProofs KeyProofs CsmcSpecs CsmcFinal AuxCsmc SweepTheory AuxProofs AuxStruct AuxFinal TpCsmc TpProofs TpFinal Twisted.

Set Implicit Arguments.
Unset Strict Implicit.
Unset Printing Implicit Defensive.
Import GRing.Theory Num.Theory Order.TTheory.
Local Open Scope ring_scope.

Section Kernel.
Variables (X : finZmodType) (n' : nat) (Q W : Type).
Local Notation n := n'.+1.
Local Notation pop := (pop X n').
Variables (noise0 ld0 : X -> R) (noise ld : Q -> X -> R).
Variables (scale0 : X -> X) (scale : Q -> X -> X).
Variable tparams : X -> seq X -> W * seq W.
Variables (law0 lpdf0 : W -> X -> R) (law lpdf : W -> X -> X -> R).
Variables (prior0 : X -> R) (prior : X -> X -> Q -> R).
Variables (r0 : X -> R) (rt : X -> X -> Q -> R) (g0 : X -> X) (gt : X -> X -> Q -> X).
Variables (rs : resampler n) (mv : mover n).

Local Notation Gam0 := (fun x => prior0 x + r0 x).
Local Notation Gam := (fun x y q => prior x y q + rt x y q).
Local Notation tw := (fun mv => tw_kernel noise0 ld0 noise ld scale0 scale tparams law0 lpdf0 law lpdf r0 rt g0 gt rs mv).
Local Notation md := (tw_model n' ld0 ld scale0 scale law0 lpdf0 law lpdf r0 rt g0 gt).

(** The proposals together are, up to a factor, the prior times the densities of the auxiliary
    variables around the states. *)
Definition tw_factor (qs : seq Q) : Prop := forall u0 us, size us = size qs ->
  let: (w0, ws) := tparams u0 us in
  size ws = size qs /\ exists k, forall x0 xs, size xs = size qs ->
    lpdf0 w0 x0 + log_path (fun x y w => lpdf w x y) x0 xs ws
    = k + (prior0 x0 + log_path prior x0 xs qs)
      + (ld0 (u0 - x0) + log_path (fun _ y uq => ld uq.2 (uq.1 - y)) x0 xs (zip us qs)).

Lemma tw_aux_grad xm xs qs es : tw_aux scale gt xm xs qs es = grad_aux scale gt xm xs qs qs es.
Proof. by elim: qs xm xs es => [|q qs IH] xm [|x xs] [|e es] //=; rewrite IH. Qed.

Lemma tw_path xm xs qs us ws : size us = size qs -> size ws = size qs -> size xs = size qs ->
  log_path (tw_Gamma_t ld scale lpdf rt gt) xm xs (zip (zip us qs) ws)
  = log_path (al_Gamma_t_tilde ld scale Gam gt) xm xs (zip (zip qs us) qs)
    + (log_path (fun x y w => lpdf w x y) xm xs ws - log_path prior xm xs qs
       - log_path (fun _ y uq => ld uq.2 (uq.1 - y)) xm xs (zip us qs)).
Proof.
elim: qs xm xs us ws => [|q qs IH] xm [|x xs] [|u us] [|w ws] //=.
  by move=> *; rewrite !subr0 addr0.
move=> [s1] [s2] [s3]; rewrite IH //.
move: (log_path _ _ _ _) (log_path _ _ _ _) (log_path _ _ _ _) (log_path _ _ _ _) (ld q _) (ld q _) (prior _ _ _) (rt _ _ _) (lpdf _ _ _).
by move=> *; toR; lra.
Qed.

Section Invariant.
Hypotheses (noise0P : prob_vec noise0) (noiseP : forall q, prob_vec (noise q)).
Hypotheses (law0P : forall w, prob_vec (law0 w)) (lawP : forall w x, prob_vec (law w x)).
Hypothesis rs_good : good_resampler rs.
Hypotheses (ld0E : exists c, c != 0 /\ forall z, exp (ld0 z) = c * noise0 z)
  (ldE : forall q, exists c, c != 0 /\ forall z, exp (ld q z) = c * noise q z)
  (lpdf0E : forall w, exists c, c != 0 /\ forall z, exp (lpdf0 w z) = c * law0 w z)
  (lpdfE : forall w, exists c, c != 0 /\ forall x z, exp (lpdf w x z) = c * law w x z).

Lemma prod_vec (mu : 'I_n -> X -> R) : (forall i, prob_vec (mu i)) -> prob_vec (fun x : pop => \prod_i mu i (x i)).
Proof.
move=> H; split=> [x|]; first by apply: prodr_ge0 => i _; exact: (proj1 (H i)).
rewrite -(bigA_distr_bigA (fun i x => mu i x)) big1 // => i _; exact: (proj2 (H i)).
Qed.

Lemma tw_M0_indep w key : samples_indep (tw_M0_rvs n' law0 w key) (fun _ => law0 w).
Proof.
split=> [||f]; [by apply: proper_draw; exact: (prod_vec (mu := fun=> law0 w))|by []|].
by rewrite /tw_M0_rvs E_draw.
Qed.

Lemma tw_Mt_indep key (xm : pop) w : samples_indep (tw_Mt_rvs law key xm w) (fun i => law w (xm i)).
Proof.
split=> [||f]; [by apply: proper_draw; exact: (prod_vec (mu := fun i => law w (xm i)))|by []|].
by rewrite /tw_Mt_rvs E_draw.
Qed.

Lemma tw_init w0 u0 : good_init (md w0 u0).
Proof.
move=> key; have [c [c0 Hc]] := lpdf0E w0; have s := tw_M0_indep w0 key; split; first by case: s.
by apply: (indep_step (fun _ => Gamma0 (md w0 u0)) s c0) => x i; rewrite -Hc.
Qed.

Lemma tw_step w0 u0 : good_step (md w0 u0).
Proof.
move=> key p q xm; have [c [c0 Hc]] := lpdfE p; have s := tw_Mt_indep key xm p; split; first by case: s.
by apply: (indep_step (fun i x => Gammat (md w0 u0) (xm i) x q) s c0) => x i; rewrite -Hc.
Qed.

Lemma tw_given key w0 u0 ps qs backward : size ps = size qs ->
  good mv (size qs) (path_target (Gamma0 (md w0 u0)) (Gammat (md w0 u0)) qs)
    (fun x0 xs b0 bs => E (drop_weights (kernel rs mv (md w0 u0) key x0 xs b0 bs ps qs backward true))).
Proof.
move=> sz; have i0 := tw_init w0 u0; have st := tw_step w0 u0.
split=> [gm f|c eps mvb f fc]; first by apply: csmc_invariant.
exact: (csmc_error i0 st rs_good key backward mvb fc sz).
Qed.

Theorem tw_good key qs backward : tw_factor qs ->
  good mv (size qs) (path_target Gam0 Gam qs)
    (fun x0 xs b0 bs => E (drop_weights (tw mv key x0 xs b0 bs qs backward))).
Proof.
move=> fac.
have nz0 z : noise0 z != 0.
  by have [c [c0 Hc]] := ld0E; apply: contraTneq (expR_gt0 (ld0 z)) => e; rewrite Hc e mulr0 ltxx.
have e0 z : exp (ld0 z) = exp (ld0 0) / noise0 0 * noise0 z.
  have [c [c0 Hc]] := ld0E; rewrite !Hc; have := nz0 0.
  by move: (noise0 0) => k /eqP k0; toR; field.
have pos0 : 0 < exp (ld0 0) / noise0 0.
  by rewrite divr_gt0 ?expR_gt0 // lt0r nz0 (proj1 noise0P).
have posu : 0 < ucst noise ld qs.
  have pos s : 0 < exp (ld s 0) / noise s 0.
    by rewrite divr_gt0 ?expR_gt0 // lt0r (noise_nz ldE) (proj1 (noiseP s)).
  rewrite /ucst; elim: (qs) => [|s l IH]; first by rewrite big_nil ltr01.
  by rewrite big_cons mulr_gt0.
pose w x0 xs (u : X * (size qs).-tuple X) :=
  noise0 (u.1 - (x0 + scale0 (g0 x0))) * aux_law noise scale gt x0 xs qs qs u.2.
pose pr (u : X * (size qs).-tuple X) := tparams u.1 u.2.
pose T (u : X * (size qs).-tuple X) :=
  path_target (Gamma0 (md (pr u).1 u.1)) (Gammat (md (pr u).1 u.1)) (zip (zip u.2 qs) (pr u).2).
pose K (u : X * (size qs).-tuple X) x0 xs b0 bs :=
  E (drop_weights (kernel rs mv (md (pr u).1 u.1) (split key 0) x0 xs b0 bs (pr u).2 (zip (zip u.2 qs) (pr u).2) backward true)).
have sz (u : X * (size qs).-tuple X) : size (pr u).2 = size qs.
  by have := fac u.1 u.2 (size_tuple _); rewrite -/(pr u); case: (pr u) => a b [].
have sz2 (u : X * (size qs).-tuple X) : size (zip (zip u.2 qs) (pr u).2) = size qs.
  by rewrite !size_zip size_tuple sz !minnn.
have kk (u : X * (size qs).-tuple X) : exists k, 0 < k /\ forall x0 xs, size xs = size qs ->
    path_target Gam0 Gam qs x0 xs * w x0 xs u = k * T u x0 xs.
  have := fac u.1 u.2 (size_tuple _); have := sz u; rewrite /T -/(pr u).
  case: u {sz sz2} => u0 us /=; case: (pr (u0, us)) => w0 ws /= sw [_ [k Hk]].
  exists (exp k * (exp (ld0 0) / noise0 0 * ucst noise ld qs))^-1; split.
    by rewrite invr_gt0; apply: mulr_gt0; [exact: expR_gt0|exact: mulr_gt0].
  move=> x0 xs sx; rewrite /w /path_target /= /tw_Gamma_0 tw_path ?size_tuple //.
  have -> : r0 x0 + (ld0 (u0 - x0 - scale0 (g0 x0)) - ld0 (u0 - x0) + lpdf0 w0 x0) +
     (log_path (al_Gamma_t_tilde ld scale Gam gt) x0 xs (zip (zip qs us) qs)
      + (log_path (fun x y w => lpdf w x y) x0 xs ws - log_path prior x0 xs qs
         - log_path (fun _ y uq => ld uq.2 (uq.1 - y)) x0 xs (zip us qs)))
     = k + prior0 x0 + r0 x0 + ld0 (u0 - x0 - scale0 (g0 x0))
       + log_path (al_Gamma_t_tilde ld scale Gam gt) x0 xs (zip (zip qs us) qs).
    have := Hk x0 xs sx.
    move: (log_path _ _ _ _) (log_path _ _ _ _) (log_path _ _ _ _) (log_path _ _ _ _) (ld0 _) (ld0 _) (prior0 _) (r0 _) (lpdf0 _ _).
    by clear; move=> *; toR; lra.
  rewrite !expRD (aux_target scale Gam gt ldE) ?size_tuple // (e0 (u0 - x0 - scale0 (g0 x0))).
  have -> : u0 - x0 - scale0 (g0 x0) = u0 - (x0 + scale0 (g0 x0)) by rewrite opprD addrA.
  have K0 := lt0r_neq0 (mulr_gt0 (expR_gt0 k) (mulr_gt0 pos0 posu)).
  move: K0; move: (exp k) (exp (prior0 _)) (exp (r0 _)) (exp (log_path _ _ _ _)) (noise0 (u0 - _)) (exp _ / _) (ucst _ _ _) (aux_law _ _ _ _ _ _ _ _) => ek e e1 g b a c d K0.
  have := mulVf K0; move: ((ek * (a * c))^-1) => i Hi.
  by rewrite -[LHS]mul1r -Hi; Rring.
have [k kP] : exists k : X * (size qs).-tuple X -> R, forall u, 0 < k u /\ forall x0 xs, size xs = size qs ->
    path_target Gam0 Gam qs x0 xs * w x0 xs u = k u * T u x0 xs.
  exact: fin_all_exists kk.
apply: (@eq_good X n' mv _ _ _ (fun x0 xs b0 bs f => \sum_u w x0 xs u * K u x0 xs b0 bs f)).
  move=> x0 xs b0 bs f sx sb; rewrite /drop_weights E_bind /tw_kernel E_bind E_normals.
  rewrite sum_pairs.
  pose G u0 us := E (drop_weights (kernel rs mv (md (tparams u0 us).1 u0) (split key 0) x0 xs b0 bs
         (tparams u0 us).2 (zip (zip us qs) (tparams u0 us).2) backward true)) f.
  transitivity (\sum_e0 noise0 e0 * lsum [seq noise q | q <- qs] (fun es =>
     G (x0 + scale0 (g0 x0) + e0) (grad_aux scale gt x0 xs qs qs es))).
    apply: eq_bigr => y _; congr (_ * _); apply: eq_lsum => es.
    by rewrite tw_aux_grad /G; case: (tparams _ _) => w0 ws; rewrite /drop_weights E_bind.
  rewrite (eq_bigr (fun y => noise0 y * (\sum_(us : (size qs).-tuple X) aux_law noise scale gt x0 xs qs qs us *
     G (x0 + scale0 (g0 x0) + y) us))); last first.
    by move=> y _; rewrite (lsum_aux _ _ _ _ (G (x0 + scale0 (g0 x0) + y))).
  rewrite (sum_shift _ _ (fun u0 => \sum_(us : (size qs).-tuple X) aux_law noise scale gt x0 xs qs qs us * G u0 us)).
  by apply: eq_bigr => u0 _; rewrite mulr_sumr; apply: eq_bigr => us _; rewrite mulrA.
apply: (@good_mix X n' mv _ _ w _ T K k).
- by move=> u; case: (kP u).
- move=> x0 xs sx; rewrite sum_pairs -(proj2 (shift_vec (x0 + scale0 (g0 x0)) noise0P)).
  by apply: eq_bigr => u0 _; rewrite /w /= -mulr_sumr aux_law_sum // mulr1.
- by move=> u; case: (kP u).
- move=> u; have := tw_given (split key 0) (pr u).1 u.1 (ps := (pr u).2) (qs := zip (zip u.2 qs) (pr u).2) backward.
  by rewrite sz2 sz; apply.
Qed.
End Invariant.

(** *** Shapes and keys *)
Lemma tw_aux_size xm xs qs es : size xs = size qs -> size es = size qs -> size (tw_aux scale gt xm xs qs es) = size qs.
Proof. by elim: qs xm xs es => [|q qs IH] xm [|x xs] [|e es] //= [s1] [s2]; rewrite IH. Qed.

Lemma tw_shape key x0 xs b0 bs qs backward : keeps rs ->
  (forall u0 us, size (tparams u0 us).2 = size us) ->
  size bs = size qs -> size xs = size qs ->
  always (keeps_shape x0 xs b0 bs) (tw mv key x0 xs b0 bs qs backward).
Proof.
move=> kp st s2 s3; apply: (@normals_shape X) => e0 es; rewrite size_map => se.
have su : size (tw_aux scale gt x0 xs qs es) = size qs by exact: tw_aux_size.
have := st (x0 + scale0 (g0 x0) + e0) (tw_aux scale gt x0 xs qs es).
case e : (tparams (x0 + scale0 (g0 x0) + e0) (tw_aux scale gt x0 xs qs es)) => [w0 ws] /= sw.
by rewrite e; apply: kernel_shape; rewrite // !size_zip su sw su !minnn.
Qed.

Lemma uses_tw key x0 xs b0 bs qs backward :
  (forall key w i j b, uses [:: key] (rs key w i j b)) -> (forall key w k, uses [:: key] (mv key w k)) ->
  uses [:: key] (tw mv key x0 xs b0 bs qs backward).
Proof.
move=> h1 h2; apply: (@uses_two_part _ _ _ _ 0%N) => // e0 es; cbv zeta; case: (tparams (x0 + scale0 (g0 x0) + e0) (tw_aux scale gt x0 xs qs es)) => w0 ws.
by apply: uses_kernel_spec => // *; exact: uses_draw.
Qed.
End Kernel.

Section Final.
Variables (X : finZmodType) (n' : nat) (Q W : Type).
Local Notation n := n'.+1.
Variables (noise0 ld0 : X -> R) (noise ld : Q -> X -> R).
Variables (scale0 : X -> X) (scale : Q -> X -> X).
Variable tparams : X -> seq X -> W * seq W.
Variables (law0 lpdf0 : W -> X -> R) (law lpdf : W -> X -> X -> R).
Variables (prior0 : X -> R) (prior : X -> X -> Q -> R).
Variables (r0 : X -> R) (rt : X -> X -> Q -> R) (g0 : X -> X) (gt : X -> X -> Q -> X).
Variables (rs : resampler n).
Local Notation target := (path_target (fun x => prior0 x + r0 x) (fun x y q => prior x y q + rt x y q)).
Local Notation tw := (fun mv => tw_kernel noise0 ld0 noise ld scale0 scale tparams law0 lpdf0 law lpdf r0 rt g0 gt rs mv).
Hypotheses (h1 : prob_vec noise0) (h2 : forall q, prob_vec (noise q)).
Hypotheses (h3 : forall w, prob_vec (law0 w)) (h4 : forall w x, prob_vec (law w x)).
Hypothesis h5 : good_resampler rs.
Hypotheses (h6 : exists c, c != 0 /\ forall z, exp (ld0 z) = c * noise0 z)
  (h7 : forall q, exists c, c != 0 /\ forall z, exp (ld q z) = c * noise q z)
  (h8 : forall w, exists c, c != 0 /\ forall z, exp (lpdf0 w z) = c * law0 w z)
  (h9 : forall w, exists c, c != 0 /\ forall x z, exp (lpdf w x z) = c * law w x z).

Lemma tw_inv (mv : mover n) key qs backward : tw_factor ld0 ld tparams lpdf0 lpdf prior0 prior qs -> good_mover mv ->
  leaves_invariant (size qs) (target qs) (fun x0 xs b0 bs => drop_weights (tw mv key x0 xs b0 bs qs backward)).
Proof. by move=> h10 gm; apply: (proj1 (tw_good scale0 scale r0 rt g0 gt mv h1 h2 h3 h4 h5 h6 h7 h8 h9 key backward h10)). Qed.

Lemma tw_near c key qs backward : tw_factor ld0 ld tparams lpdf0 lpdf prior0 prior qs ->
  nearly_invariant (size qs) (target qs)
    (fun x0 xs b0 bs => drop_weights (tw (@force_move _) key x0 xs b0 bs qs backward)) c (force_eps n c).
Proof.
move=> h10; apply: (proj2 (tw_good scale0 scale r0 rt g0 gt (@force_move _) h1 h2 h3 h4 h5 h6 h7 h8 h9 key backward h10)) => *.
exact: force_bound.
Qed.
End Final.

(** Laws meeting the hypotheses: a random walk observed with flat noise. *)
Lemma ex_tw_factor (X : finZmodType) (Q : Type) (pl : Q -> X -> R) (q0 : Q) (qs : seq Q) :
  tw_factor (fun=> 0) (fun _ _ => 0) (fun _ _ => (q0, qs)) pl (fun w x y => pl w (y - x))
    (pl q0) (fun x y q => pl q (y - x)) qs.
Proof.
move=> u0 us su; split=> //; exists 0 => x0 xs sx; rewrite !add0r.
suff -> : log_path (fun (_ : X) y (uq : X * Q) => 0) x0 xs (zip us qs) = 0.
  by rewrite addr0.
by elim: (zip us qs) x0 xs {sx} => [|z l IH] x0 [|x xs] //=; rewrite IH addr0.
Qed.
