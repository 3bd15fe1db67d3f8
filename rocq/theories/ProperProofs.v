(** * ProperProofs: every draw of every kernel and of every loop is from a probability mass function. *)
From Coq Require Import Reals.
From mathcomp Require Import all_ssreflect all_algebra.
From Verif Require Import RInst Prog ProgTheory Resampling ResamplingProofs KillingProofs MoveProofs Spec SmcTheory Csmc CsmcProofs CsmcInvariance CsmcSpecs.
From Verif Require Import AuxCsmc AuxProofs TpCsmc Twisted Smooth Single SingleProofs Drivers Experiments ErgodicFinal ProperSpec.

Set Implicit Arguments.
Unset Strict Implicit.
Unset Printing Implicit Defensive.
Import GRing.Theory Num.Theory Order.TTheory.
Local Open Scope ring_scope.

Lemma proper_bind_always A C (m : prog A) (g : A -> prog C) :
  proper m -> always (fun a => proper (g a)) m -> proper (bind m g).
Proof. by elim: m => [a|k B p h IH] //= [p0 p1 pr] al; split=> // b; apply: IH. Qed.

Lemma proper_scan_inv C I O (Inv : C -> Prop) (body : C -> I -> prog (C * O)) :
  (forall c i, Inv c -> proper (body c i) /\ always (fun r => Inv r.1) (body c i)) ->
  forall ins c, Inv c -> proper (scan body c ins).
Proof.
move=> h; elim=> [|i ins IH] c hc //=; have [h1 h2] := h c i hc.
apply: proper_bind_always => //; apply: always_imp h2 => -[c' o] /= hc'.
by apply: proper_bind; [exact: IH|case].
Qed.

Lemma proper_scan C I O (body : C -> I -> prog (C * O)) ins c :
  (forall c i, proper (body c i)) -> proper (scan body c ins).
Proof. by move=> h; apply: (@proper_scan_inv _ _ _ (fun=> True)) => // a i _; split=> //; apply: always_true. Qed.

Lemma proper_choice k n (w : 'I_n -> R) : prob_vec w -> proper (choice k w).
Proof. by move=> pw; apply: proper_draw; apply: cat_prob. Qed.

Lemma exp_log_prob n' (lw : 'I_n'.+1 -> R) : prob_vec (fun i => exp (normalize_log lw i)).
Proof. exact: (@normalize_prob _ lw). Qed.

Lemma self_normalise_prob n' (lw : 'I_n'.+1 -> R) : prob_vec (self_normalise lw).
Proof.
have s0 : 0 < \sum_j exp (lw j - amax lw).
  rewrite (bigD1 ord0) //=; apply: ltr_paddr; last exact: expR_gt0.
  by apply: sumr_ge0 => i _; apply/ltW/expR_gt0.
split=> [i|]; rewrite /self_normalise; first by apply: divr_ge0; [apply/ltW/expR_gt0|exact: ltW].
by rewrite -mulr_suml divff // gt_eqF.
Qed.

Lemma normals_proper (Y : finType) key (nu0 : Y -> R) nus : prob_vec nu0 -> (forall i, prob_vec (nth nu0 nus i)) ->
  proper (normals key nu0 nus).
Proof.
move=> p0 pn; apply: proper_bind => [|[]] //; apply: proper_draw.
have pt : prob_vec (fun t : (size nus).-tuple Y => \prod_(i < size nus) nth nu0 nus i (tnth t i)).
  split=> [t|]; first by apply: prodr_ge0 => i _; apply: (proj1 (pn i)).
  have [f2 s2] := @prod_prob [finType of 'I_(size nus)] Y (fun i => nth nu0 nus i) (fun i => pn i).
  rewrite -[RHS]s2 (reindex (fun f : {ffun 'I_(size nus) -> Y} => [tuple f i | i < size nus])) /=.
    by apply: eq_bigr => f _; apply: eq_bigr => i _; rewrite tnth_mktuple.
  exists (fun t => [ffun i => tnth t i]) => [f _|t _]; first by apply/ffunP => i; rewrite ffunE tnth_mktuple.
  by apply: eq_from_tnth => i; rewrite tnth_mktuple ffunE.
exact: (pair_prob p0 pt).
Qed.

Lemma normals_map_proper (Y : finType) (S : Type) key (nu0 : Y -> R) (nu : S -> Y -> R) ss :
  prob_vec nu0 -> (forall s, prob_vec (nu s)) -> proper (normals key nu0 [seq nu s | s <- ss]).
Proof.
move=> p0 ps; apply: normals_proper => // i; case: (ltnP i (size ss)) => h; last by rewrite nth_default ?size_map.
by case: ss h => // s ss h; rewrite (nth_map s).
Qed.

(** ** The contracts of the resampling functions and of the final moves *)
Lemma multinomial_draws n' : draws_resampler (@multinomial n'.+1).
Proof.
move=> key w i j c pw; apply: proper_bind => //; apply: proper_draw.
by apply: (@prod_prob _ _ (fun _ => cat_law w)) => l; exact: cat_prob.
Qed.

Lemma killing_draws n' : draws_resampler (@killing n').
Proof.
move=> key w i j c pw; case: c; first by case: (@killing_good n' key w pw).
apply: proper_bind => [|idx] //.
apply: proper_bind => [|e].
  apply: proper_draw; apply: (@prod_prob _ _ (fun l (b : bool) =>
    if b then 1 - prob_lt (amax w) (w l) else prob_lt (amax w) (w l))) => l.
  have /andP [p0 p1] := prob_lt_01 (amax w) (w l).
  by split=> [[]|]; rewrite ?subr_ge0 // big_bool /= subrK.
apply: proper_bind => [|r] //; apply: proper_draw.
by apply: (@prod_prob _ _ (fun _ => cat_law w)) => l; exact: cat_prob.
Qed.

Lemma code_draws n' :
  [/\ draws_resampler (@multinomial n'.+1), draws_resampler (@killing n'),
      draws_mover (@barker_move n'.+1) & draws_mover (@force_move n'.+1)].
Proof.
split; [exact: multinomial_draws|exact: killing_draws| |].
- by move=> key w k; exact: barker_proper.
- by move=> key w k; exact: force_proper.
Qed.

(** ** csmc.py *)
Section Csmc.
Variables (X : Type) (n' : nat) (P Q : Type) (rs : resampler n'.+1) (mv : mover n'.+1).
Hypotheses (rsP : draws_resampler rs) (mvP : draws_mover mv).

Lemma sampling_pass_proper (Gam : X -> X -> Q -> R) key qs bT (o : fwd_out X n') c :
  proper (backward_sampling_pass mv Gam key qs bT o c).
Proof.
rewrite /backward_sampling_pass; case: (last_gen o) => lw x.
apply: proper_bind => [|[B a]].
  by case: (~~ c); [apply: barker_proper|apply: mvP]; exact: normalize_prob.
apply: proper_bind => [|[]] //; apply: proper_scan => x' [[[k xm] l] q].
by apply: proper_bind => //; apply: proper_choice; exact: normalize_prob.
Qed.

Lemma scanning_pass_proper key bT (o : fwd_out X n') : proper (backward_scanning_pass mv key bT o).
Proof.
rewrite /backward_scanning_pass; case: (last_gen o) => lw x.
apply: proper_bind => [|[B a]]; first by apply: mvP; exact: normalize_prob.
by apply: proper_bind => [|[]] //; apply: proper_scan => b [xm A].
Qed.

Variable md : model X n' P Q.
Hypotheses (M0P : forall key, proper (M0_rvs md key)) (MtP : forall key xm p, proper (Mt_rvs md key xm p)).

Lemma kernel_proper key x0 xs b0 bs ps qs backward c : proper (kernel rs mv md key x0 xs b0 bs ps qs backward c).
Proof.
apply: proper_bind => [|o].
  apply: proper_bind => [|y0]; first exact: M0P.
  apply: proper_bind => [|[]] //.
  apply: (@proper_scan_inv _ _ _ (fun c => prob_vec c.1)) => [[w xm] i pw|]; last exact: exp_log_prob.
  split; first by apply: proper_bind => [|A]; [exact: rsP|apply: proper_bind => [|xt]; [exact: MtP|]].
  rewrite always_bind; apply: always_true => A; rewrite always_bind; apply: always_true => xt /=.
  exact: exp_log_prob.
apply: proper_bind => [|[]] //; case: backward; [exact: sampling_pass_proper|exact: scanning_pass_proper].
Qed.
End Csmc.

(** ** rw_csmc.py, l_csmc_f.py, al_csmc_f.py *)
Section Sweep.
Variables (X : Type) (n' : nat) (rs : resampler n'.+1) (mv : mover n'.+1).
Hypotheses (rsP : draws_resampler rs) (mvP : draws_mover mv).

Lemma aux_forward_proper PP (W0 : pop X n' -> lwts n') Wt post wof key b0 bs x0 xs (pp : seq PP) :
  (forall lw, prob_vec (wof (post lw))) -> proper (aux_forward rs W0 Wt post wof key b0 bs x0 xs pp).
Proof.
move=> wP; apply: proper_bind => [|[]] //.
apply: (@proper_scan_inv _ _ _ (fun c => prob_vec c.1)) => [[w xm] i pw|]; last exact: normalize_prob.
by split; [apply: proper_bind => //; exact: rsP|rewrite always_bind; apply: always_true => A /=; exact: wP].
Qed.

Lemma aux_backward_proper QQ (Gam : X -> X -> QQ -> R) key bT qq backward o :
  proper (aux_backward mv Gam key bT qq backward o).
Proof.
apply: proper_bind => [|[]] //; case: backward; [exact: sampling_pass_proper|exact: scanning_pass_proper].
Qed.
End Sweep.

Section Aux.
Variables (X : finZmodType) (n' : nat) (Q setting : Type) (noise ld : setting -> X -> R) (scale : setting -> X -> X).
Variables (logH : setting -> {ffun 'I_n'.+1 -> X} -> X -> X -> R) (rs : resampler n'.+1) (mv : mover n'.+1).
Variables (G0 : X -> R) (Gt : X -> X -> Q -> R) (g0 : X -> X) (gt : X -> X -> Q -> X).
Hypotheses (noiseP : forall s, prob_vec (noise s)) (rsP : draws_resampler rs) (mvP : draws_mover mv).

Lemma rw_proper finite key x0 xs b0 bs s0 ss qs backward :
  proper (rw_kernel noise rs mv G0 Gt finite key x0 xs b0 bs s0 ss qs backward).
Proof.
apply: proper_bind => [|o]; last by apply: proper_bind => //; exact: aux_backward_proper.
apply: proper_bind => [|[e0 es]]; first exact: normals_map_proper.
apply: proper_bind => [|[p0 ps]]; first by apply: normals_map_proper => *; exact: iid_prob.
by apply: aux_forward_proper => // lw; exact: exp_log_prob.
Qed.

Lemma l_proper key x0 xs b0 bs s0 ss qs backward :
  proper (l_kernel noise scale logH rs mv G0 Gt g0 gt key x0 xs b0 bs s0 ss qs backward).
Proof.
apply: proper_bind => [|o]; last exact: aux_backward_proper.
apply: proper_bind => [|[e0 es]]; first exact: normals_map_proper.
apply: proper_bind => [|[p0 ps]]; first by apply: normals_map_proper => *; exact: iid_prob.
by apply: aux_forward_proper => // lw; exact: normalize_prob.
Qed.

Lemma al_proper key x0 xs b0 bs s0 ss qs backward :
  proper (al_kernel noise ld scale rs mv G0 Gt g0 gt key x0 xs b0 bs s0 ss qs backward).
Proof.
apply: proper_bind => [|[o pp]]; last exact: aux_backward_proper.
apply: proper_bind => [|[e0 es]]; first exact: normals_map_proper.
apply: proper_bind => [|[p0 ps]]; first by apply: normals_map_proper => *; exact: iid_prob.
by apply: proper_bind => //; apply: aux_forward_proper => // lw; exact: normalize_prob.
Qed.
End Aux.

(** ** tp_csmc.py, atp_csmc_f.py, t_atp_csmc_f.py *)
Section Tp.
Variables (X : finZmodType) (n' : nat) (Q : Type).
Variables (noise0 ld0 : X -> R) (noise ld : Q -> X -> R) (scale0 : X -> X) (scale : Q -> X -> X).
Variables (pnoise0 pld0 : X -> R) (pnoise pld : Q -> X -> R) (mean0 : X -> X) (mean : Q -> X -> X -> X).
Variables (prior0 : X -> R) (prior : X -> X -> Q -> R).
Variables (r0 : X -> R) (rt : X -> X -> Q -> R) (g0 : X -> X) (gt : X -> X -> Q -> X).
Variables (logH0 : {ffun 'I_n'.+1 -> X} -> X -> 'I_n'.+1 -> R)
  (logH : Q -> {ffun 'I_n'.+1 -> X} -> {ffun 'I_n'.+1 -> X} -> X -> 'I_n'.+1 -> R).
Variables (rs : resampler n'.+1) (mv : mover n'.+1).
Hypotheses (noise0P : prob_vec noise0) (noiseP : forall q, prob_vec (noise q)).
Hypotheses (rsP : draws_resampler rs) (mvP : draws_mover mv).

Section Proposal.
Hypotheses (pnoise0P : prob_vec pnoise0) (pnoiseP : forall q, prob_vec (pnoise q)).

Lemma tp_proper key x0 xs b0 bs qs backward :
  proper (tp_kernel noise0 noise scale0 scale pnoise0 pnoise mean0 mean prior0 prior r0 rt g0 gt logH0 logH rs mv
    key x0 xs b0 bs qs backward).
Proof.
apply: proper_bind => [|[e0 es]]; first exact: normals_map_proper.
by apply: kernel_proper => // *; apply: proper_bind => //; apply/proper_draw/iid_prob.
Qed.

Lemma atp_proper key x0 xs b0 bs qs backward :
  proper (atp_kernel noise0 ld0 noise ld scale0 scale pnoise0 pld0 pnoise pld mean0 mean prior0 prior r0 rt g0 gt rs mv
    key x0 xs b0 bs qs backward).
Proof.
apply: proper_bind => [|[e0 es]]; first exact: normals_map_proper.
by apply: kernel_proper => // *; apply: proper_bind => //; apply/proper_draw/iid_prob.
Qed.
End Proposal.

Variables (W : Type) (tparams : X -> seq X -> W * seq W) (law0 lpdf0 : W -> X -> R) (law lpdf : W -> X -> X -> R).
Hypotheses (law0P : forall w, prob_vec (law0 w)) (lawP : forall w x, prob_vec (law w x)).

Lemma tw_proper key x0 xs b0 bs qs backward :
  proper (tw_kernel noise0 ld0 noise ld scale0 scale tparams law0 lpdf0 law lpdf r0 rt g0 gt rs mv
    key x0 xs b0 bs qs backward).
Proof.
apply: proper_bind => [|[e0 es]]; first exact: normals_map_proper.
cbv beta iota zeta; case: tparams => w0 ws; apply: kernel_proper => // [k|k xm p]; apply: proper_draw.
- exact: (@prod_prob _ _ (fun=> law0 w0)).
- exact: (@prod_prob _ _ (fun i => law p (xm i))).
Qed.
End Tp.

(** ** al_csmc_s.py, atp_csmc_s.py *)
Section Smooth.
Variables (X : finZmodType) (n' : nat) (Q setting : Type).
Variables (noise ld : setting -> X -> R) (scale : setting -> X -> X).
Variables (val0 : X -> R) (valt : X -> X -> Q -> R) (g0 : X -> X) (ga gb : X -> X -> Q -> X).
Variables (rs : resampler n'.+1) (mv : mover n'.+1).
Hypotheses (noiseP : forall s, prob_vec (noise s)) (rsP : draws_resampler rs) (mvP : draws_mover mv).

Lemma sm_finish_proper key p0 p1 ps bT backward o :
  proper (sm_finish ld scale valt g0 ga gb mv key p0 p1 ps bT backward o).
Proof.
apply: proper_bind => [|[]] //; case: backward; last exact: scanning_pass_proper.
apply: proper_bind => [|[B a]]; first by apply: mvP; exact: normalize_prob.
apply: proper_bind => [|B1]; first by apply: proper_choice; exact: normalize_prob.
apply: proper_bind => [|[[x1 x2] outs]].
  apply: proper_scan => -[x1 x2] i; apply: proper_bind => //; apply: proper_choice; exact: normalize_prob.
by apply: proper_bind => // ; apply: proper_choice; exact: normalize_prob.
Qed.

Lemma als_proper key x0 xs b0 bs s0 ss qs backward :
  proper (als_kernel noise ld scale val0 valt g0 ga gb rs mv key x0 xs b0 bs s0 ss qs backward).
Proof.
apply: proper_bind => [|[e0 es]]; first exact: normals_map_proper.
apply: proper_bind => [|[d0 ds]]; first by apply: normals_map_proper => *; exact: iid_prob.
cbv beta iota zeta; case: sm_aux => [|u0 us] //; case: mk_pops => [|y0 [|y1 ys]] //.
case: zip => [|p1 ps] //; case: bs => [|b1 bs'] //.
apply: proper_bind => [|o]; last exact: sm_finish_proper.
apply: proper_bind => [|A0]; first by apply: rsP; exact: normalize_prob.
apply: proper_bind => [|[]] //.
apply: (@proper_scan_inv _ _ _ (fun c => prob_vec c.1.1)) => [[[w xm] xmm] i pw|]; last exact: normalize_prob.
by split; [apply: proper_bind => //; exact: rsP|rewrite always_bind; apply: always_true => A /=; exact: normalize_prob].
Qed.

Variables (law0 lpdf0 : setting * X -> X -> R) (law lpdf : setting * X * Q -> X -> X -> R).
Hypotheses (law0P : forall p, prob_vec (law0 p)) (lawP : forall p x, prob_vec (law p x)).

Lemma atps_proper key x0 xs b0 bs s0 ss qs backward :
  proper (atps_kernel noise ld scale val0 valt g0 ga gb rs mv law0 lpdf0 law lpdf key x0 xs b0 bs s0 ss qs backward).
Proof.
apply: proper_bind => [|[e0 es]]; first exact: normals_map_proper.
cbv beta iota zeta; case: sm_aux => [|u0 us] //; case: zip => [|p1 ps] //; case: bs => [|b1 bs'] //.
apply: proper_bind => [|o]; last by apply: proper_bind => [|[[]]] //; exact: sm_finish_proper.
have MtP k xm p : proper (atps_Mt_rvs (n' := n') law k xm p).
  by apply: proper_draw; exact: (@prod_prob _ _ (fun i => law p (xm i))).
apply: proper_bind => [|y0]; first by apply: proper_draw; exact: (@prod_prob _ _ (fun=> law0 _)).
apply: proper_bind => [|A0]; first by apply: rsP; exact: normalize_prob.
apply: proper_bind => [|y1]; first exact: MtP.
apply: proper_bind => [|[]] //.
apply: (@proper_scan_inv _ _ _ (fun c => prob_vec c.1.1)) => [[[w xm] xmm] i pw|]; last exact: normalize_prob.
split; first by apply: proper_bind => [|A]; [exact: rsP|apply: proper_bind => [|xt] //; exact: MtP].
rewrite always_bind; apply: always_true => A; rewrite always_bind; apply: always_true => xt /=; exact: normalize_prob.
Qed.
End Smooth.

(** ** mala.py, tp.py, imh.py *)
Lemma select_proper (Y : Type) n' (mv : mover n'.+1) key lw (payload : 'I_n'.+1 -> Y) :
  draws_mover mv -> proper (select mv key lw payload).
Proof. by move=> mvP; apply: proper_bind => //; apply: mvP; exact: self_normalise_prob. Qed.

Section Single.
Variables (X : finZmodType) (N : nat) (log_pdf : X -> R) (grad : X -> X) (noise ld : X -> R) (scale : X -> X).
Variables (log_H : {ffun 'I_N.+1 -> X} -> X -> X -> R) (mv : mover N.+1).
Hypotheses (noiseP : prob_vec noise) (mvP : draws_mover mv).

Lemma mala_proper key auxiliary s : proper (mala_kernel log_pdf grad noise ld scale log_H mv key auxiliary s).
Proof.
apply: proper_bind => [|e]; first exact: proper_draw.
apply: proper_bind => [|es]; last exact: select_proper.
by apply: proper_draw; exact: (@prod_prob _ _ (fun=> noise)).
Qed.

Lemma tp1_proper (corr : X -> X -> X -> R) (post : key -> X -> prog {ffun 'I_N -> X}) key s :
  (forall key u, proper (post key u)) -> proper (tp1_kernel log_pdf grad noise scale mv corr post key s).
Proof.
move=> postP; apply: proper_bind => [|e]; first exact: proper_draw.
by apply: proper_bind => [|es]; [exact: postP|exact: select_proper].
Qed.
End Single.

Lemma imh_proper (X : Type) N (log_pdf : X -> R) (prior : key -> prog {ffun 'I_N -> X}) (mv : mover N.+1) key s :
  (forall key, proper (prior key)) -> draws_mover mv -> proper (imh_kernel log_pdf prior mv key s).
Proof. by move=> pP mvP; apply: proper_bind => [|es]; [exact: pP|exact: select_proper]. Qed.

(** ** The loops and the experiments *)
Section Loops.
Variables (X : Type) (I : eqType) (T : nat).
Local Notation state := (X * ('I_T -> I))%type.

Lemma adapt_proper (S S' J : Type) (K : key -> S -> (J -> R) -> prog S') nxt acc stat cfg key s d n :
  (forall key s d, proper (K key s d)) -> proper (adapt_routine K nxt acc stat cfg key s d n).
Proof.
move=> KP; apply: proper_bind => [|[]] //; apply: proper_scan => -[[s' d'] h] [i k].
by apply: proper_bind => //; exact: KP.
Qed.

Lemma mcmc_sampling_proper (K : key -> state -> prog state) key s n k :
  (forall key s, proper (K key s)) -> proper (mcmc_sampling K key s n k).
Proof.
by move=> KP; apply: proper_bind => [|[]] //; apply: proper_scan => s' i; apply: proper_bind => //; exact: KP.
Qed.

Lemma tp_adaptation_proper (S : Type) (K : key -> S -> R -> prog (S * bool)) cfg key s d n :
  (forall key s d, proper (K key s d)) -> proper (tp_adaptation K cfg key s d n).
Proof. by move=> KP; apply: proper_bind => [|[]] //; apply: adapt_proper. Qed.

Lemma tp_sampling_proper (C : Type) (K : key -> X * C -> prog (X * C * bool)) key s n k :
  (forall key s, proper (K key s)) -> proper (tp_sampling K key s n k).
Proof.
by move=> KP; apply: proper_bind => [|[]] //; apply: proper_scan => s' i; apply: proper_bind => //; exact: KP.
Qed.
End Loops.

Lemma sv_experiment_proper (D S P A : Type) (get_data : key -> prog D) (init : key -> D -> prog S)
    (adapt : D -> key -> S -> prog (S * P)) (burnin : D -> P -> key -> S -> prog S) (sample : D -> P -> key -> S -> prog A) key K M :
  (forall key, proper (get_data key)) -> (forall key d, proper (init key d)) ->
  (forall d key s, proper (adapt d key s)) -> (forall d p key s, proper (burnin d p key s)) ->
  (forall d p key s, proper (sample d p key s)) -> proper (sv_experiment get_data init adapt burnin sample key K M).
Proof.
move=> h1 h2 h3 h4 h5; apply: proper_scan => u k; apply: proper_bind => //.
apply: proper_bind => [|d] //; apply: proper_bind => [|s] //; apply: proper_bind => [|[s' p]] //.
apply: proper_bind => [|[v l]]; first by apply: proper_scan => *; apply: proper_bind.
by apply: proper_scan => *; apply: proper_bind.
Qed.

Lemma lg_experiment_proper (D S A : Type) (get_data : key -> prog D) (init : key -> D -> prog (nat -> S))
    (kern : D -> key -> S -> prog A) key K M :
  (forall key, proper (get_data key)) -> (forall key d, proper (init key d)) ->
  (forall d key s, proper (kern d key s)) -> proper (lg_experiment get_data init kern key K M).
Proof.
move=> h1 h2 h3; apply: proper_scan => u k; apply: proper_bind => //.
apply: proper_bind => [|d] //; apply: proper_bind => [|s] //.
by apply: proper_scan => *; apply: proper_bind.
Qed.

Lemma data_proper (N0 N1 N : finType) (A S O : Type) (noise0 : N0 -> R) (noises : N1 -> R) (build : N0 -> N1 -> A)
    (noise : N -> R) (fst : N -> S) (obs : S -> N -> O) (nxt : S -> N -> S) key T :
  prob_vec noise0 -> prob_vec noises -> prob_vec noise ->
  proper (lg_get_data_prog noise0 noises build key) /\ proper (sv_get_data_prog noise fst obs nxt key T).
Proof.
move=> h0 h1 h; split.
  by apply: proper_bind => [|e0]; [exact: proper_draw|apply: proper_bind => [|es] //; exact: proper_draw].
apply: proper_bind => [|e0]; first exact: proper_draw.
apply: proper_scan => x k; apply: proper_bind => [|e]; first exact: proper_draw.
by apply: proper_bind => [|e'] //; exact: proper_draw.
Qed.
