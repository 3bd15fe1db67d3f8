(** * Property theorems C72: every draw is from a probability mass function.  Statements only; the proofs are in
    ProperProofs.v.

    [proper p] (Prog.v): on every execution of [p], every law given to a draw is non-negative and sums to one.  No
    hypothesis is made on the lengths of the lists, on the targets, on the gradients or on the corrections: only the
    laws of the noises, proposals and priors passed to the kernels have to be probability mass functions. *)
From Coq Require Import Reals.
From mathcomp Require Import all_ssreflect all_algebra.
From Verif Require Import RInst Prog Resampling Spec Csmc AuxCsmc TpCsmc Twisted Smooth Single Drivers Experiments.
From Verif Require Import ProperSpec ProperProofs.

Set Implicit Arguments.
Unset Strict Implicit.
Unset Printing Implicit Defensive.
Import GRing.Theory Num.Theory Order.TTheory.
Local Open Scope ring_scope.

(** ** C72 *)
(** The resampling functions and the final moves of the code, conditional or not. *)
Theorem C72_contracts n' :
  [/\ draws_resampler (@multinomial n'.+1), draws_resampler (@killing n'),
      draws_mover (@barker_move n'.+1) & draws_mover (@force_move n'.+1)].
Proof. exact: code_draws. Qed.
Print Assumptions C72_contracts.

Theorem C72_csmc (X : Type) (n' : nat) (P Q : Type) (rs : resampler n'.+1) (mv : mover n'.+1) (md : model X n' P Q)
    key x0 xs b0 bs ps qs backward conditional :
  draws_resampler rs -> draws_mover mv ->
  (forall key, proper (M0_rvs md key)) -> (forall key xm p, proper (Mt_rvs md key xm p)) ->
  proper (kernel rs mv md key x0 xs b0 bs ps qs backward conditional).
Proof. by move=> *; apply: kernel_proper. Qed.
Print Assumptions C72_csmc.

Theorem C72_sweeps (X : finZmodType) (n' : nat) (Q setting : Type) (noise ld : setting -> X -> R)
    (scale : setting -> X -> X) (logH : setting -> {ffun 'I_n'.+1 -> X} -> X -> X -> R)
    (rs : resampler n'.+1) (mv : mover n'.+1) (G0 : X -> R) (Gt : X -> X -> Q -> R)
    (g0 : X -> X) (gt : X -> X -> Q -> X) finite key x0 xs b0 bs s0 ss qs backward :
  (forall s, prob_vec (noise s)) -> draws_resampler rs -> draws_mover mv ->
  [/\ proper (rw_kernel noise rs mv G0 Gt finite key x0 xs b0 bs s0 ss qs backward),
      proper (l_kernel noise scale logH rs mv G0 Gt g0 gt key x0 xs b0 bs s0 ss qs backward)
    & proper (al_kernel noise ld scale rs mv G0 Gt g0 gt key x0 xs b0 bs s0 ss qs backward)].
Proof. by move=> *; split; [apply: rw_proper|apply: l_proper|apply: al_proper]. Qed.
Print Assumptions C72_sweeps.

Theorem C72_tp_csmc (X : finZmodType) (n' : nat) (Q : Type)
    (noise0 ld0 : X -> R) (noise ld : Q -> X -> R) (scale0 : X -> X) (scale : Q -> X -> X)
    (pnoise0 pld0 : X -> R) (pnoise pld : Q -> X -> R) (mean0 : X -> X) (mean : Q -> X -> X -> X)
    (prior0 : X -> R) (prior : X -> X -> Q -> R) (r0 : X -> R) (rt : X -> X -> Q -> R)
    (g0 : X -> X) (gt : X -> X -> Q -> X)
    (logH0 : {ffun 'I_n'.+1 -> X} -> X -> 'I_n'.+1 -> R)
    (logH : Q -> {ffun 'I_n'.+1 -> X} -> {ffun 'I_n'.+1 -> X} -> X -> 'I_n'.+1 -> R)
    (rs : resampler n'.+1) (mv : mover n'.+1) key x0 xs b0 bs qs backward :
  prob_vec noise0 -> (forall q, prob_vec (noise q)) -> prob_vec pnoise0 -> (forall q, prob_vec (pnoise q)) ->
  draws_resampler rs -> draws_mover mv ->
  proper (tp_kernel noise0 noise scale0 scale pnoise0 pnoise mean0 mean prior0 prior r0 rt g0 gt logH0 logH rs mv
    key x0 xs b0 bs qs backward)
  /\ proper (atp_kernel noise0 ld0 noise ld scale0 scale pnoise0 pld0 pnoise pld mean0 mean prior0 prior r0 rt g0 gt rs mv
    key x0 xs b0 bs qs backward).
Proof. by move=> *; split; [apply: tp_proper|apply: atp_proper]. Qed.
Print Assumptions C72_tp_csmc.

Theorem C72_t_atp (X : finZmodType) (n' : nat) (Q W : Type)
    (noise0 ld0 : X -> R) (noise ld : Q -> X -> R) (scale0 : X -> X) (scale : Q -> X -> X)
    (tparams : X -> seq X -> W * seq W) (law0 lpdf0 : W -> X -> R) (law lpdf : W -> X -> X -> R)
    (r0 : X -> R) (rt : X -> X -> Q -> R) (g0 : X -> X) (gt : X -> X -> Q -> X)
    (rs : resampler n'.+1) (mv : mover n'.+1) key x0 xs b0 bs qs backward :
  prob_vec noise0 -> (forall q, prob_vec (noise q)) -> (forall w, prob_vec (law0 w)) -> (forall w x, prob_vec (law w x)) ->
  draws_resampler rs -> draws_mover mv ->
  proper (tw_kernel noise0 ld0 noise ld scale0 scale tparams law0 lpdf0 law lpdf r0 rt g0 gt rs mv
    key x0 xs b0 bs qs backward).
Proof. by move=> *; apply: tw_proper. Qed.
Print Assumptions C72_t_atp.

Theorem C72_smoothing (X : finZmodType) (n' : nat) (Q setting : Type)
    (noise ld : setting -> X -> R) (scale : setting -> X -> X)
    (val0 : X -> R) (valt : X -> X -> Q -> R) (g0 : X -> X) (ga gb : X -> X -> Q -> X)
    (law0 lpdf0 : setting * X -> X -> R) (law lpdf : setting * X * Q -> X -> X -> R)
    (rs : resampler n'.+1) (mv : mover n'.+1) key x0 xs b0 bs s0 ss qs backward :
  (forall s, prob_vec (noise s)) -> (forall p, prob_vec (law0 p)) -> (forall p x, prob_vec (law p x)) ->
  draws_resampler rs -> draws_mover mv ->
  proper (als_kernel noise ld scale val0 valt g0 ga gb rs mv key x0 xs b0 bs s0 ss qs backward)
  /\ proper (atps_kernel noise ld scale val0 valt g0 ga gb rs mv law0 lpdf0 law lpdf key x0 xs b0 bs s0 ss qs backward).
Proof. by move=> *; split; [apply: als_proper|apply: atps_proper]. Qed.
Print Assumptions C72_smoothing.

Theorem C72_single (X : finZmodType) (N : nat) (log_pdf : X -> R) (grad : X -> X) (noise ld : X -> R) (scale : X -> X)
    (log_H : {ffun 'I_N.+1 -> X} -> X -> X -> R) (mv : mover N.+1) (auxiliary : bool)
    (corr : X -> X -> X -> R) (post : key -> X -> prog {ffun 'I_N -> X}) (prior : key -> prog {ffun 'I_N -> X}) key s s' :
  prob_vec noise -> draws_mover mv -> (forall key u, proper (post key u)) -> (forall key, proper (prior key)) ->
  [/\ proper (mala_kernel log_pdf grad noise ld scale log_H mv key auxiliary s),
      proper (tp1_kernel log_pdf grad noise scale mv corr post key s)
    & proper (imh_kernel log_pdf prior mv key s')].
Proof. by move=> *; split; [apply: mala_proper|apply: tp1_proper|apply: imh_proper]. Qed.
Print Assumptions C72_single.

(** The loops around any kernel whose draws are proper. *)
Theorem C72_loops (S S' J : Type) (A : Type) (I : eqType) (T : nat) (X C : Type)
    (K : key -> S -> (J -> R) -> prog S') nxt acc stat cfg (s : S) (d : J -> R)
    (K1 : key -> A * ('I_T -> I) -> prog (A * ('I_T -> I))) s1
    (K2 : key -> S -> R -> prog (S * bool)) (d2 : R)
    (K3 : key -> X * C -> prog (X * C * bool)) s3 key n k :
  (forall key s d, proper (K key s d)) -> (forall key s, proper (K1 key s)) ->
  (forall key s d, proper (K2 key s d)) -> (forall key s, proper (K3 key s)) ->
  [/\ proper (adapt_routine K nxt acc stat cfg key s d n), proper (mcmc_sampling K1 key s1 n k),
      proper (tp_adaptation K2 cfg key s d2 n) & proper (tp_sampling K3 key s3 n k)].
Proof.
by move=> *; split; [apply: adapt_proper|apply: mcmc_sampling_proper|apply: tp_adaptation_proper|apply: tp_sampling_proper].
Qed.
Print Assumptions C72_loops.

Theorem C72_experiments (D S P A : Type) (get_data : key -> prog D) (init : key -> D -> prog S)
    (adapt : D -> key -> S -> prog (S * P)) (burnin : D -> P -> key -> S -> prog S) (sample : D -> P -> key -> S -> prog A)
    (inits : key -> D -> prog (nat -> S)) (kern : D -> key -> S -> prog A) key K M :
  (forall key, proper (get_data key)) -> (forall key d, proper (init key d)) ->
  (forall d key s, proper (adapt d key s)) -> (forall d p key s, proper (burnin d p key s)) ->
  (forall d p key s, proper (sample d p key s)) ->
  (forall key d, proper (inits key d)) -> (forall d key s, proper (kern d key s)) ->
  proper (sv_experiment get_data init adapt burnin sample key K M) /\ proper (lg_experiment get_data inits kern key K M).
Proof. by move=> *; split; [apply: sv_experiment_proper|apply: lg_experiment_proper]. Qed.
Print Assumptions C72_experiments.

Theorem C72_data (N0 N1 N : finType) (A S O : Type) (noise0 : N0 -> R) (noises : N1 -> R) (build : N0 -> N1 -> A)
    (noise : N -> R) (fst : N -> S) (obs : S -> N -> O) (nxt : S -> N -> S) key T :
  prob_vec noise0 -> prob_vec noises -> prob_vec noise ->
  proper (lg_get_data_prog noise0 noises build key) /\ proper (sv_get_data_prog noise fst obs nxt key T).
Proof. exact: data_proper. Qed.
Print Assumptions C72_data.

(** Non-vacuity: a chain of l_csmc_f on Z/5 with uniform noise, multinomial resampling and the forced move, whatever
    the correction. *)
Example ex_proper logH key x0 xs b0 bs ss qs backward :
  proper (l_kernel (X := [finZmodType of 'I_5]) (n' := 2) (Q := unit) (setting := unit)
    (fun _ _ => 1 / 5%:R) (fun _ x => x) logH (@multinomial 3) (@force_move 3) (fun _ => 0) (fun _ _ _ => 0)
    id (fun _ x _ => x) key x0 xs b0 bs tt ss qs backward).
Proof.
have [h1 _ _ h2] := code_draws 2; apply: l_proper => // _; split=> [_|]; first by rewrite divr_ge0 ?ler01 ?ler0n.
by rewrite (eq_bigr (fun=> 1 / 5%:R)) // sumr_const (_ : #|_| = 5%N) ?card_ord // -(mulr_natr (1 / _)) mulfVK // pnatr_eq0.
Qed.
