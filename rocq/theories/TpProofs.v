(** * TpProofs: invariance of the kernels of atp_csmc_f.py and tp_csmc.py. *)
From Coq Require Import Reals FunctionalExtensionality.
From mathcomp Require Import all_ssreflect all_algebra.
From Verif Require Import RInst Prog ProgTheory Resampling Spec ResamplingProofs.
From Verif Require Import KillingProofs MoveProofs ResamplingSpecs Csmc SmcTheory BackwardProofs.
From Verif Require Import CsmcInvariance AuxCsmc SweepTheory AuxProofs TpCsmc.

Set Implicit Arguments.
Unset Strict Implicit.
Unset Printing Implicit Defensive.
Import GRing.Theory Num.Theory Order.TTheory.
Local Open Scope ring_scope.

Section Mix.
Variables (X : finZmodType) (n' : nat) (mv : mover n'.+1).
Local Notation n := n'.+1.

(** Drawing an auxiliary variable from its law given the state, then applying a kernel
    that is good for the conditional law of the state. *)
Lemma good_mix m (U : finType) (w : X -> seq X -> U -> R) (target : X -> seq X -> R)
    (T : U -> X -> seq X -> R)
    (K : U -> X -> seq X -> 'I_n -> seq 'I_n -> (seq X * seq 'I_n -> R) -> R) (k : U -> R) :
  (forall u, 0 < k u) ->
  (forall x0 xs, size xs = m -> \sum_u w x0 xs u = 1) ->
  (forall u x0 xs, size xs = m -> target x0 xs * w x0 xs u = k u * T u x0 xs) ->
  (forall u, good mv m (T u) (K u)) ->
  good mv m target (fun x0 xs b0 bs f => \sum_u w x0 xs u * K u x0 xs b0 bs f).
Proof.
move=> kp w1 wT gd.
have kerE f : traj_sum m (fun x0 xs b0 bs => target x0 xs * \sum_u w x0 xs u * K u x0 xs b0 bs f)
   = \sum_u k u * traj_sum m (fun x0 xs b0 bs => T u x0 xs * K u x0 xs b0 bs f).
  under [RHS]eq_bigr do rewrite -traj_sum_scale.
  rewrite -traj_sum_exchange.
  apply: eq_bigr => x0 _; apply: eq_bigr => b0 _; apply: eq_bigr => xs _; apply: eq_bigr => bs _.
  rewrite mulr_sumr; apply: eq_bigr => u _.
  by rewrite !mulrA wT ?size_tuple.
have funE (g : seq X -> seq 'I_n -> R) :
   traj_sum m (fun x0 xs b0 bs => target x0 xs * g (x0 :: xs) (b0 :: bs))
   = \sum_u k u * traj_sum m (fun x0 xs b0 bs => T u x0 xs * g (x0 :: xs) (b0 :: bs)).
  under [RHS]eq_bigr do rewrite -traj_sum_scale.
  rewrite -traj_sum_exchange.
  apply: eq_bigr => x0 _; apply: eq_bigr => b0 _; apply: eq_bigr => xs _; apply: eq_bigr => bs _.
  rewrite -[target x0 xs]mulr1 -(w1 x0 xs) ?size_tuple // mulr_sumr mulr_suml.
  by apply: eq_bigr => u _; rewrite wT ?size_tuple // mulrA.
split=> [gm f|c eps mvb f fc].
  rewrite kerE funE; apply: eq_bigr => u _; congr (_ * _).
  by have [H _] := gd u; exact: (H gm f).
rewrite kerE funE (funE (fun _ _ => eps)) -sumrB.
apply: le_trans (ler_norm_sum _ _ _) _; apply: ler_sum => u _.
rewrite -mulrBr normrM gtr0_norm // ler_pmul2l //.
by have [_ H] := gd u; exact: (H _ _ mvb f fc).
Qed.

Lemma sum_iid_means (nu : X -> R) (m : 'I_n -> X) (g : pop X n' -> R) :
  \sum_(e : pop X n') iid nu e * g [ffun i => m i + e i]
  = \sum_(z : pop X n') (\prod_i nu (z i - m i)) * g z.
Proof.
pose h (z : pop X n') : pop X n' := [ffun i => m i + z i].
have hi : injective h.
  by move=> a b /ffunP e; apply/ffunP => i; have := e i; rewrite !ffunE => /addrI.
rewrite [RHS](reindex_inj hi) /=; apply: eq_bigr => e _; congr (_ * _).
by apply: eq_bigr => i _; rewrite ffunE addrAC subrr add0r.
Qed.

Lemma shift_vec (nu : X -> R) (m : X) : prob_vec nu -> prob_vec (fun y => nu (y - m)).
Proof.
move=> [p0 p1]; split=> [y|]; first exact: p0.
rewrite -p1 (reindex_inj (addIr m)) /=.
by apply: eq_bigr => y _; rewrite addrK.
Qed.

End Mix.

Section Tp.
Variables (X : finZmodType) (n' : nat) (Q : Type).
Local Notation n := n'.+1.
Local Notation pop := (pop X n').
Local Notation anc := (anc n').
Local Notation lwts := (lwts n').
Variables (noise0 ld0 : X -> R) (noise ld : Q -> X -> R).
Variables (scale0 : X -> X) (scale : Q -> X -> X).
Variables (pnoise0 pld0 : X -> R) (pnoise pld : Q -> X -> R).
Variables (mean0 : X -> X) (mean : Q -> X -> X -> X).
Variables (prior0 : X -> R) (prior : X -> X -> Q -> R).
Variables (r0 : X -> R) (rt : X -> X -> Q -> R) (g0 : X -> X) (gt : X -> X -> Q -> X).
Variables (logH0 : pop -> X -> 'I_n -> R) (logH : Q -> pop -> pop -> X -> 'I_n -> R).
Variables (rs : resampler n) (mv : mover n).
Hypotheses (noise0P : prob_vec noise0) (noiseP : forall q, prob_vec (noise q)).
Hypotheses (pnoise0P : prob_vec pnoise0) (pnoiseP : forall q, prob_vec (pnoise q)).
Hypothesis rs_good : good_resampler rs.

Local Notation Gam0 := (tp_Gamma_0 prior0 r0).
Local Notation Gam := (tp_Gamma_t prior rt).

Lemma tp_aux_grad xm xs qs es : tp_aux scale gt xm xs qs es = grad_aux scale gt xm xs qs qs es.
Proof. by elim: qs xm xs es => [|q qs IH] xm [|x xs] [|e es] //=; rewrite IH. Qed.

Lemma M0_indep u key : samples_indep (atp_M0_rvs n' pnoise0 mean0 u key) (fun _ y => pnoise0 (y - mean0 u)).
Proof.
split=> [||f].
- by apply: proper_bind => //; apply: proper_draw; exact: iid_prob.
- by move=> _; exact: shift_vec.
- by rewrite /atp_M0_rvs E_bind E_draw -(sum_iid_means pnoise0 (fun=> mean0 u)).
Qed.

Lemma Mt_indep key (xm : pop) p : samples_indep (atp_Mt_rvs pnoise mean key xm p)
  (fun i y => pnoise p.2 (y - mean p.2 (xm i) p.1)).
Proof.
split=> [||f].
- by apply: proper_bind => //; apply: proper_draw; exact: iid_prob.
- by move=> i; exact: shift_vec.
- by rewrite /atp_Mt_rvs E_bind E_draw -sum_iid_means.
Qed.

(** ** atp_csmc_f *)
Section Atp.
Hypotheses (ld0E : exists c, c != 0 /\ forall z, exp (ld0 z) = c * noise0 z)
  (ldE : forall q, exists c, c != 0 /\ forall z, exp (ld q z) = c * noise q z)
  (pld0E : exists c, c != 0 /\ forall z, exp (pld0 z) = c * pnoise0 z)
  (pldE : forall q, exists c, c != 0 /\ forall z, exp (pld q z) = c * pnoise q z).

Local Notation md := (atp_model n' ld0 ld scale0 scale pnoise0 pld0 pnoise pld mean0 mean prior0 prior r0 rt g0 gt).

Lemma atp_init u0 : good_init (md u0).
Proof.
move=> key; have [c [c0 Hc]] := pld0E; have s := M0_indep u0 key; split; first by case: s.
by apply: (indep_step (fun _ => Gamma0 (md u0)) s c0) => x i; rewrite -Hc.
Qed.

Lemma atp_step u0 : good_step (md u0).
Proof.
move=> key p q xm; have [c [c0 Hc]] := pldE p.2; have s := Mt_indep key xm p; split; first by case: s.
by apply: (indep_step (fun i x => Gammat (md u0) (xm i) x q) s c0) => x i; rewrite -Hc.
Qed.

Lemma atp_given key u0 pq backward :
  good mv (size pq) (path_target (Gamma0 (md u0)) (Gammat (md u0)) pq)
    (fun x0 xs b0 bs => E (drop_weights (kernel rs mv (md u0) key x0 xs b0 bs pq pq backward true))).
Proof.
have i0 := atp_init u0; have st := atp_step u0.
split=> [gm f|c eps mvb f fc]; first by apply: csmc_invariant.
exact: (csmc_error i0 st rs_good key backward mvb fc erefl).
Qed.

Lemma atp_path xm xs qs us : size us = size qs ->
  log_path (atp_Gamma_t ld scale prior rt gt) xm xs (zip us qs)
  = log_path (al_Gamma_t_tilde ld scale Gam gt) xm xs (zip (zip qs us) qs).
Proof.
elim: qs xm xs us => [|q qs IH] xm [|x xs] [|u us] //= [sz].
by rewrite IH.
Qed.

Theorem atp_good key qs backward :
  good mv (size qs) (path_target Gam0 Gam qs)
    (fun x0 xs b0 bs => E (drop_weights (atp_kernel noise0 ld0 noise ld scale0 scale pnoise0 pld0 pnoise pld
       mean0 mean prior0 prior r0 rt g0 gt rs mv key x0 xs b0 bs qs backward))).
Proof.
have nz0 z : noise0 z != 0.
  by have [c [c0 Hc]] := ld0E; apply: contraTneq (expR_gt0 (ld0 z)) => e; rewrite Hc e mulr0 ltxx.
have e0 z : exp (ld0 z) = exp (ld0 0) / noise0 0 * noise0 z.
  have [c [c0 Hc]] := ld0E; rewrite !Hc; have := nz0 0.
  by move: (noise0 0) => k /eqP k0; toR; field.
have pos0 : 0 < exp (ld0 0) / noise0 0.
  by rewrite divr_gt0 ?expR_gt0 // lt0r nz0 (proj1 noise0P).
have posu : 0 < ucst noise ld qs.
  have pos s : 0 < exp (ld s 0) / noise s 0.
    by rewrite divr_gt0 ?expR_gt0 // lt0r (noise_nz ldE) (proj1 (noiseP s)).
  rewrite /ucst; elim: (qs) => [|s l IH]; first by rewrite big_nil ltr01.
  by rewrite big_cons mulr_gt0.
pose w x0 xs (u : X * (size qs).-tuple X) :=
  noise0 (u.1 - (x0 + scale0 (g0 x0))) * aux_law noise scale gt x0 xs qs qs u.2.
pose T (u : X * (size qs).-tuple X) := path_target (Gamma0 (md u.1)) (Gammat (md u.1)) (zip u.2 qs).
pose K (u : X * (size qs).-tuple X) x0 xs b0 bs :=
  E (drop_weights (kernel rs mv (md u.1) (split key 0) x0 xs b0 bs (zip u.2 qs) (zip u.2 qs) backward true)).
have sz (u : (size qs).-tuple X) : size (zip u qs) = size qs by rewrite size_zip size_tuple minnn.
apply: (@eq_good X n' mv _ _ _ (fun x0 xs b0 bs f => \sum_u w x0 xs u * K u x0 xs b0 bs f)).
  move=> x0 xs b0 bs f sx sb; rewrite /drop_weights E_bind /atp_kernel E_bind E_normals.
  rewrite sum_pairs.
  transitivity (\sum_e0 noise0 e0 * lsum [seq noise q | q <- qs] (fun es =>
     E (drop_weights (kernel rs mv (md (x0 + scale0 (g0 x0) + e0)) (split key 0) x0 xs b0 bs
         (zip (grad_aux scale gt x0 xs qs qs es) qs) (zip (grad_aux scale gt x0 xs qs qs es) qs) backward true)) f)).
    apply: eq_bigr => y _; congr (_ * _); apply: eq_lsum => es.
    by rewrite tp_aux_grad /drop_weights E_bind.
  pose G u0 us := E (drop_weights (kernel rs mv (md u0) (split key 0) x0 xs b0 bs
         (zip us qs) (zip us qs) backward true)) f.
  rewrite (eq_bigr (fun y => noise0 y * (\sum_(us : (size qs).-tuple X) aux_law noise scale gt x0 xs qs qs us *
     G (x0 + scale0 (g0 x0) + y) us))); last first.
    by move=> y _; rewrite (lsum_aux _ _ _ _ (G (x0 + scale0 (g0 x0) + y))).
  rewrite (sum_shift _ _ (fun u0 => \sum_(us : (size qs).-tuple X) aux_law noise scale gt x0 xs qs qs us * G u0 us)).
  by apply: eq_bigr => u0 _; rewrite mulr_sumr; apply: eq_bigr => us _; rewrite mulrA.
apply: (@good_mix X n' mv _ _ w _ T K (fun=> (exp (ld0 0) / noise0 0 * ucst noise ld qs)^-1)).
- by move=> _; rewrite invr_gt0 mulr_gt0.
- move=> x0 xs sx; rewrite sum_pairs -(proj2 (shift_vec (x0 + scale0 (g0 x0)) noise0P)).
  by apply: eq_bigr => u0 _; rewrite /w /= -mulr_sumr aux_law_sum // mulr1.
- move=> [u0 us] x0 xs sx; rewrite /w /T /path_target /= /atp_Gamma_0 atp_path ?size_tuple //.
  rewrite !expRD (aux_target scale Gam gt ldE) ?size_tuple // (e0 (u0 - x0 - scale0 (g0 x0))).
  have -> : u0 - x0 - scale0 (g0 x0) = u0 - (x0 + scale0 (g0 x0)) by rewrite opprD addrA.
  have K0 := lt0r_neq0 (mulr_gt0 pos0 posu).
  move: K0; move: (exp (prior0 _)) (exp (r0 _)) (exp (log_path _ _ _ _)) (noise0 (u0 - _)) (exp _ / _) (ucst _ _ _) (aux_law _ _ _ _ _ _ _ _) => e e1 g b a c d K0.
  have := mulVf K0; move: ((a * c)^-1) => i Hi.
  by rewrite -[LHS]mul1r -Hi; Rring.
- by move=> [u0 us]; have := atp_given (split key 0) u0 (zip us qs) backward; rewrite sz.
Qed.
End Atp.

(** ** tp_csmc: the auxiliary variables are integrated out in the weights *)
Section TpMarg.
Hypothesis logH0E : exists S : pop -> R, forall (x : pop) b phi,
  \sum_u noise0 (u - (x b + phi)) * \prod_(i | i != b) pnoise0 (x i - mean0 u)
  = S x * exp (logH0 x phi b).
Hypothesis logHE : forall q (xm : pop), exists S : pop -> R, forall (x : pop) b phi,
  \sum_u noise q (u - (x b + phi)) * \prod_(i | i != b) pnoise q (x i - mean q (xm i) u)
  = S x * exp (logH q xm x phi b).

Local Notation md := (tp_model scale0 scale pnoise0 pnoise mean0 mean prior0 prior r0 rt g0 gt logH0 logH).
Local Notation tker := (tp_kernel noise0 noise scale0 scale pnoise0 pnoise mean0 mean prior0 prior r0 rt g0 gt logH0 logH rs mv).

Lemma sum_tp (nu pnu : X -> R) (mn : 'I_n -> X -> X) (g d : X -> X) (G : X -> R) (b : 'I_n) (m : X -> prog pop) (F : pop -> R) :
  (forall u, samples_indep (m u) (fun i y => pnu (y - mn i u))) ->
  \sum_x exp (G x) * (\sum_e nu e * E (m (x + d x + e)) (fun xt => F (upd xt b x)))
  = \sum_(xt : pop) (exp (G (xt b)) *
      \sum_u nu (u - (xt b + d (xt b))) * \prod_(i | i != b) pnu (xt i - mn i u)) * F xt.
Proof.
move=> ind.
transitivity (\sum_u \sum_x (exp (G x) * nu (u - (x + d x))) *
    \sum_(z : pop) (\prod_i pnu (z i - mn i u)) * F (upd z b x)).
  rewrite exchange_big; apply: eq_bigr => x _ /=.
  rewrite (sum_shift _ _ (fun u => E (m u) (fun xt => F (upd xt b x)))).
  rewrite mulr_sumr; apply: eq_bigr => u _; rewrite mulrA; congr (_ * _).
  by have [_ _ ->] := ind u.
transitivity (\sum_u \sum_(xt : pop) (exp (G (xt b)) * nu (u - (xt b + d (xt b)))) *
     (\prod_(i | i != b) pnu (xt i - mn i u)) * F xt).
  apply: eq_bigr => u _.
  rewrite (@sum_upd_all _ _ (fun i y => pnu (y - mn i u)) b (fun x => exp (G x) * nu (u - (x + d x)))) //.
  by have [_ p _] := ind u; exact: (proj2 (p b)).
rewrite exchange_big; apply: eq_bigr => xt _ /=; rewrite mulr_sumr mulr_suml.
by apply: eq_bigr => u _; rewrite -!mulrA.
Qed.

Local Notation ai := (ai X n' Q).

Definition tp_init (key : key) : ginit X n' :=
  GInit (fun b x => Draw [::] X noise0 (fun e =>
           do x0 <- atp_M0_rvs n' pnoise0 mean0 (x + scale0 (g0 x) + e) (split key 0); Ret (upd x0 b x)))
        (log_w0 (md 0)) Gam0.

Definition tp_step (i : ai) : gstep X n' :=
  let q := a_p i in
  GStep (fun w k j => rs (split (a_key i) 1) w k j true)
        (fun xm b x => Draw [::] X (noise q) (fun e =>
           do xt <- atp_Mt_rvs pnoise mean (split (a_key i) 0) xm (x + scale q (gt (xm b) x q) + e, q);
           Ret (upd xt b x)))
        (fun xm xt => log_wt (md 0) xm xt (0, q) q)
        (fun x y => Gam x y q).

Lemma tp_init_ok key : init_ok (tp_init key).
Proof.
have [S HS] := logH0E; split.
- exists (fun x0 => S x0 * \sum_j exp (Gam0 (x0 j) - tp_M0_logpdf scale0 g0 logH0 x0 j)) => b F.
  rewrite -(absorb_norm S (fun x0 j => Gam0 (x0 j) - tp_M0_logpdf scale0 g0 logH0 x0 j)).
  transitivity (\sum_x exp (Gam0 x) * (\sum_e noise0 e *
     E (atp_M0_rvs n' pnoise0 mean0 (x + scale0 (g0 x) + e) (split key 0)) (fun xt => F (upd xt b x)))).
    by apply: eq_bigr => x _; congr (_ * _); apply: eq_bigr => e _; congr (_ * _); rewrite E_bind.
  rewrite (@sum_tp noise0 pnoise0 (fun _ => mean0) g0 (fun x => scale0 (g0 x)) Gam0 b
     (fun u => atp_M0_rvs n' pnoise0 mean0 u (split key 0))); last by move=> u; exact: M0_indep.
  apply: eq_bigr => xt _; rewrite HS /tp_M0_logpdf opprK expRD; congr (_ * _); exact: mulrCA.
- move=> b x; split; [exact: (proj1 noise0P)|exact: (proj2 noise0P)|] => e.
  by apply: proper_bind => //; case: (M0_indep (x + scale0 (g0 x) + e) (split key 0)).
- by move=> b x /= e _ ep _; rewrite upd_same.
Qed.

Lemma tp_step_ok i : rs_ok (tp_step i) /\ prop_ok (tp_step i).
Proof.
split; first by move=> w pw; exact: rs_good.
set q := a_p i => xm; have [S HS] := logHE q xm; split.
- exists (fun xt => S xt * \sum_j exp (Gam (xm j) (xt j) q - tp_Mt_logpdf scale gt logH xm xt (0, q) j)) => b F.
  rewrite -(absorb_norm S (fun xt j => Gam (xm j) (xt j) q - tp_Mt_logpdf scale gt logH xm xt (0, q) j)).
  transitivity (\sum_x exp (Gam (xm b) x q) * (\sum_e noise q e *
     E (atp_Mt_rvs pnoise mean (split (a_key i) 0) xm (x + scale q (gt (xm b) x q) + e, q)) (fun xt => F (upd xt b x)))).
    by apply: eq_bigr => x _; congr (_ * _); apply: eq_bigr => e _; congr (_ * _); rewrite E_bind.
  rewrite (@sum_tp (noise q) (pnoise q) (fun i => mean q (xm i)) g0 (fun x => scale q (gt (xm b) x q))
     (fun x => Gam (xm b) x q) b (fun u => atp_Mt_rvs pnoise mean (split (a_key i) 0) xm (u, q))); last first.
    by move=> u; exact: Mt_indep.
  apply: eq_bigr => xt _; rewrite HS /tp_Mt_logpdf opprK expRD; congr (_ * _); exact: mulrCA.
- move=> b x; split; [exact: (proj1 (noiseP _))|exact: (proj2 (noiseP _))|] => e.
  by apply: proper_bind => //; case: (Mt_indep (split (a_key i) 0) xm (x + scale q (gt (xm b) x q) + e, q)).
- by move=> b x /= e _ ep _; rewrite upd_same.
Qed.

Lemma tp_steps_ok l : steps_ok (rev [seq tp_step i | i <- l]).
Proof.
rewrite -map_rev; elim: (rev l) => [|i l' IH] //=.
by have [] := tp_step_ok i.
Qed.

Definition to_inp (i : ai) (e : X) : inp X n' (X * Q) Q :=
  Inp (a_x i + scale (a_p i) (gt (a_xm i) (a_x i) (a_p i)) + e, a_p i) (a_p i) (a_bm1 i) (a_b i) (a_key i) (a_x i).

Lemma inputs_tp qs xm xs b bs key c es : size es = size qs -> size xs = size qs -> size bs = size qs ->
  inputs (zip (tp_aux scale gt xm xs qs es) qs) qs b bs key c xs
  = [seq to_inp z.1 z.2 | z <- zip (ains qs xm xs b bs key c) es].
Proof.
elim: qs xm xs b bs c es => [|q qs IH] xm [|x xs] b [|b' bs] c [|e es] //= [s1] [s2] [s3].
by rewrite IH.
Qed.

Lemma noise_ains qs xm xs b bs key c : size xs = size qs -> size bs = size qs ->
  map noise qs = [seq noise (a_p i) | i <- @ains X n' Q qs xm xs b bs key c].
Proof.
elim: qs xm xs b bs c => [|q qs IH] xm [|x xs] b [|b' bs] c //= [s2] [s3].
by rewrite -IH.
Qed.

Lemma tp_gam qs xm xs b bs key c : size xs = size qs -> size bs = size qs ->
  [seq g_gam s | s <- [seq tp_step i | i <- ains qs xm xs b bs key c]]
  = [seq (fun x y => Gam x y q) | q <- qs].
Proof.
elim: qs xm xs b bs c => [|q qs IH] xm [|x xs] b [|b' bs] c //= [s2] [s3].
by rewrite IH.
Qed.

Lemma tp_steps_eq qs xm xs b bs key c xm' xs' b0 bs' :
  size xs = size qs -> size bs = size qs -> size xs' = size qs -> size bs' = size qs ->
  [seq tp_step i | i <- ains qs xm xs b bs key c] = [seq tp_step i | i <- ains qs xm' xs' b0 bs' key c].
Proof.
elim: qs xm xs b bs c xm' xs' b0 bs' => [|q qs IH] xm [|x xs] b [|b' bs] c xm' [|x' xs'] b0 [|b0' bs'] //=.
by move=> [s1] [s2] [s3] [s4]; congr (_ :: _); apply: IH.
Qed.

Definition tp_body (c : ('I_n -> R) * pop) (i : ai) : prog ((('I_n -> R) * pop) * (lwts * anc * pop)) :=
  do A <- rs (split (a_key i) 1) c.1 (a_bm1 i) (a_b i) true;
  let xm := take_ax c.2 A in
  do xt <- g_prop (tp_step i) xm (a_b i) (a_x i);
  let lw := g_lw (tp_step i) xm xt in
  Ret ((normalize lw, xt), (lw, A, xt)).

Lemma E_scan_tp w x0 l f : sinv (normalize w, x0) l ->
  E (scan (fun c i => Draw [::] X (noise (a_p i)) (fun e => fwd_body rs (md 0) true c (to_inp i e)))
       (normalize w, x0) l) f
  = E (scan tp_body (normalize w, x0) l) f.
Proof.
apply: E_scan_inv => -[w' x] i l' [[lw /= ->] [/= xb al]].
have kA := rs_keeps (split (a_key i) 1) (a_b i) rs_good (normalize_prob lw) (normalize_gt0 lw (a_bm1 i)).
split.
  move=> g; rewrite /tp_body E_bind [LHS]/=.
  under eq_bigr do rewrite E_bind.
  rewrite E_sumE; apply: eq_E_almost; apply: almost_imp kA => A /eqP Ab /=.
  apply: eq_bigr => e _; congr (_ * _).
  have -> : take_ax x A (a_b i) = a_xm i by rewrite /take_ax ffunE Ab.
  by apply: eq_bigr => ep _; rewrite exp_normalize_log.
apply/almost_bind; apply: almost_imp kA => A /eqP Ab /= e _ /=.
move=> ep _; split; first by eexists.
case: l' al => [|j l'] //= [[exm ebm] al]; split=> //.
by rewrite ebm exm upd_same.
Qed.

Lemma tp_kernelE key x0 xs b0 bs qs backward z0 f : size xs = size qs -> size bs = size qs ->
  E (drop_weights (tker key x0 xs b0 bs qs backward)) f
  = E (gkern (tp_init (split key 0)) z0 (fun c => split (split (split key 0) 2) c) (gmv mv (mv_key backward (split key 0) (size qs)))
         (rev [seq tp_step i | i <- ains qs x0 xs b0 bs (split (split key 0) 1) 0])
         backward (rev (zip (x0 :: xs) (b0 :: bs))))
      (fun p => f (unzip1 (rev p), unzip2 (rev p))).
Proof.
move=> s2 s3; rewrite /drop_weights E_bind /tp_kernel E_bind E_normals.
set ky := split key 0.
pose back (h0 : lwts * pop) outs : R :=
  E (if backward then backward_sampling_pass mv Gam (split ky 2) qs (last b0 bs) (h0, outs) true
     else backward_scanning_pass mv (split ky 2) (last b0 bs) (h0, outs)) f.
set st := [seq tp_step i | i <- _].
pose FF p0 := E (scan tp_body (normalize (g0_lw (tp_init ky) p0), p0) (ains qs x0 xs b0 bs (split ky 1) 0))
     (fun co => back (g0_lw (tp_init ky) p0, p0) co.2).
transitivity (E (g0_prop (tp_init ky) b0 x0) FF).
  transitivity (\sum_e0 noise0 e0 * E (atp_M0_rvs n' pnoise0 mean0 (x0 + scale0 (g0 x0) + e0) (split ky 0))
     (fun p0 => FF (upd p0 b0 x0))); last first.
    by apply: eq_bigr => e0 _; congr (_ * _); rewrite [RHS]E_bind.
  apply: eq_bigr => e0 _; congr (_ * _).
  transitivity (lsum [seq noise q | q <- qs] (fun es =>
    E (atp_M0_rvs n' pnoise0 mean0 (x0 + scale0 (g0 x0) + e0) (split ky 0)) (fun p0 =>
     let p := upd p0 b0 x0 in
     E (scan (fwd_body rs (md 0) true) (normalize (log_w0 (md 0) p), p)
         (inputs (zip (tp_aux scale gt x0 xs qs es) qs) qs b0 bs (split ky 1) 0 xs))
       (fun co => back (log_w0 (md 0) p, p) co.2)))).
    apply: eq_lsum => es.
    rewrite /kernel [LHS]E_bind /forward_pass [LHS]E_bind; apply: eq_E => p0.
    rewrite [LHS]E_bind exp_normalize_log; apply: eq_E => -[c outs].
    rewrite [LHS]E_bind /back; by clear FF; case: backward {back}; apply: eq_E => -[r1 r2].
  rewrite (lsum_E _ _ (fun p0 es => _)); apply: eq_E => p0; rewrite /FF.
  rewrite -[RHS]E_scan_tp; last by apply: ains_inv; rewrite upd_same.
  rewrite -[RHS](@lsum_scan X _ _ _ (fun i => noise (a_p i))
     (fun c i e => fwd_body rs (md 0) true c (to_inp i e))).
  rewrite -noise_ains //; apply: eq_lsum_size => es; rewrite size_map => sy.
  by rewrite inputs_tp // -[RHS](scan_map (fun z => to_inp z.1 z.2)).
have := @E_scan_gfwd X n' (tp_init ky) z0 _ tp_body tp_step (fun i => (a_x i, a_b i)) (@a_bm1 _ _ _) _ (x0, b0)
  (ains qs x0 xs b0 bs (split ky 1) 0) (fun h0 _ outs => back h0 outs).
rewrite ains_ref // => ->; first last.
- exact: ains_chained.
- move=> w x i g; rewrite /tp_body E_bind; apply: eq_E => A /=.
  by apply: eq_bigr => y _; congr (_ * _); apply: eq_bigr.
rewrite /gkern [RHS]E_bind; apply: eq_E_always.
apply: always_imp (gfwd_size (tp_init ky) z0 (rev st)
     (rev (zip (x0 :: xs) (b0 :: bs)))) => h sz.
rewrite /gmv !E_bind.
have -> : (head z0 (rev (zip (x0 :: xs) (b0 :: bs)))).2 = last b0 bs.
  rewrite -nth0 nth_rev //= subn1 /= -last_nth /=.
  have le : (size bs <= size xs)%N by rewrite s2 s3.
  rewrite -[in RHS](unzip2_zip le).
  by elim: (zip xs bs) (x0) (b0) => [|[a b] l IH] y c //=.
have szq : size h.2 = size qs.
  rewrite sz size_rev size_map -(size_map (fun i => (a_x i, a_b i))) ains_ref //.
  by rewrite size_zip s2 s3 minnn.
clear FF; rewrite /back /mv_key /gback; case: backward {back}.
- rewrite (E_sampling mv (split ky 2) (st := rev st)) //; last first.
    by rewrite map_rev tp_gam // map_rev.
  by rewrite szq -surjective_pairing; apply: eq_E => -[k al] /=; apply: eq_E.
- by rewrite (E_scanning mv) -surjective_pairing; apply: eq_E.
Qed.

Theorem tp_good key qs backward :
  good mv (size qs) (path_target Gam0 Gam qs)
    (fun x0 xs b0 bs => E (drop_weights (tker key x0 xs b0 bs qs backward))).
Proof.
pose z0 := (0 : X, ord0 : 'I_n); pose ky := split key 0.
pose xs0 := nseq (size qs) (0 : X); pose bs0 := nseq (size qs) (ord0 : 'I_n).
pose sts := [seq tp_step i | i <- ains qs 0 xs0 ord0 bs0 (split ky 1) 0].
have eg : [seq g_gam s | s <- sts] = [seq (fun x y => Gam x y q) | q <- qs].
  by apply: tp_gam; rewrite ?size_nseq.
have e1 (f : seq X -> seq 'I_n -> R) :
    traj_sum (size qs) (fun x0 xs b0 bs => path_target Gam0 Gam qs x0 xs *
      E (drop_weights (tker key x0 xs b0 bs qs backward)) (fun r => f r.1 r.2))
    = psum (tp_init ky) z0 (rev sts) (fun p =>
        E (gkern (tp_init ky) z0 (fun c => split (split ky 2) c) (gmv mv (mv_key backward ky (size qs)))
             (rev sts) backward p) (fun p => f (unzip1 (rev p)) (unzip2 (rev p)))).
  rewrite -(@psum_traj X n' Q Gam Gam0 (tp_init ky) z0 sts qs (fun p => E _ _)) //.
  apply: eq_bigr => x0 _; apply: eq_bigr => b0 _; apply: eq_bigr => xs _; apply: eq_bigr => bs _.
  rewrite (@tp_kernelE key x0 xs b0 bs qs backward z0) ?size_tuple //.
  by rewrite (@tp_steps_eq qs x0 xs b0 bs (split ky 1) 0 0 xs0 ord0 bs0) ?size_tuple ?size_nseq.
have e2 (g : seq X -> seq 'I_n -> R) :
    traj_sum (size qs) (fun x0 xs b0 bs => path_target Gam0 Gam qs x0 xs * g (x0 :: xs) (b0 :: bs))
    = psum (tp_init ky) z0 (rev sts) (fun p => g (unzip1 (rev p)) (unzip2 (rev p))).
  rewrite -(@psum_traj X n' Q Gam Gam0 (tp_init ky) z0 sts qs) //.
  apply: eq_bigr => x0 _; apply: eq_bigr => b0 _; apply: eq_bigr => xs _; apply: eq_bigr => bs _.
  by rewrite revK unzip1_zip ?unzip2_zip //= ?size_tuple.
have ok : steps_ok (rev sts) by exact: tp_steps_ok.
split=> [mv_good f|c eps mvb f fc].
  rewrite e1 e2; apply: gkern_invariant => //; first exact: tp_init_ok.
  move=> lw g; rewrite -[RHS](mv_good (mv_key backward ky (size qs)) (normalize lw)).
    by apply: eq_bigr => k _; rewrite /gmv E_bind.
  exact: normalize_prob.
rewrite e1 e2 (e2 (fun _ _ => eps)).
apply: (@gkern_error X n' (tp_init ky) z0 (tp_init_ok ky) _ _ _ ok backward _ c eps) => //.
move=> lw g gc /=.
have := mvb (mv_key backward ky (size qs)) (normalize lw) g (normalize_prob lw) gc.
by congr (`|_ - _| <= _); apply: eq_bigr => k _; rewrite /gmv E_bind.
Qed.

End TpMarg.
End Tp.
