(** * LimitCsmc: the kernel of csmc.py tends to the sweep of l_csmc_f.py and al_csmc_f.py when its
    callbacks do (C65). *)
From Coq Require Import Reals FunctionalExtensionality.
From mathcomp Require Import all_ssreflect all_algebra.
From Verif Require Import RInst Prog ProgTheory Resampling Spec ResamplingProofs DriverProofs OneStep Csmc AuxCsmc AuxProofs LimitSpec LimitTheory.

Set Implicit Arguments.
Unset Strict Implicit.
Unset Printing Implicit Defensive.
Import GRing.Theory Num.Theory Order.TTheory.
Local Open Scope ring_scope.

Section Limit.
Variables (X : Type) (cvX : (nat -> X) -> X -> Prop) (n' : nat) (P Q PP QQ : Type).
Local Notation n := n'.+1.
Local Notation pop := (pop X n').
Local Notation anc := (anc n').
Local Notation lwts := (lwts n').
Variables (rs : resampler n) (mv : mover n).
Hypotheses (rsc : cont_resampler rs) (mvc : cont_mover mv).
Variables (md : nat -> model X n' P Q) (W0 : pop -> lwts) (Wt : pop -> pop -> PP -> lwts) (Gam : X -> X -> QQ -> R).

Definition cvpop (x : nat -> pop) (y : pop) : Prop := forall i, cvX (fun m => x m i) (y i).
Definition cvO (o : nat -> lwts * anc * pop) (o' : lwts * anc * pop) : Prop :=
  [/\ lw_lim (fun m => (o m).1.1) o'.1.1, same (fun m => (o m).1.2) o'.1.2 & cvpop (fun m => (o m).2) o'.2].
Definition cvC (c : nat -> ('I_n -> R) * pop) (c' : ('I_n -> R) * pop) : Prop :=
  positive_limit (fun m => (c m).1) c'.1 /\ cvpop (fun m => (c m).2) c'.2.
Definition cvF (o : nat -> fwd_out X n') (o' : fwd_out X n') : Prop :=
  [/\ lw_lim (fun m => (o m).1.1) o'.1.1, cvpop (fun m => (o m).1.2) o'.1.2 & seq_lim cvO (fun m => (o m).2) o'.2].

(** One time step: the indices agree, the proposals and the log-weights converge. *)
Definition cvI (i : nat -> inp X n' P Q) (s : sinp X n' PP) : Prop :=
  [/\ forall m, i_b (i m) = s_b s, forall m, i_bm1 (i m) = s_bm1 s, forall m k, i_key (i m) = i_key (i k),
      forall xm xm', cvpop xm xm' ->
      plim (fun z s' => s' = s /\ cvpop (fun m => upd (z m) (i_b (i m)) (i_x (i m))) (s_x s))
        (fun m => Mt_rvs (md m) (split (i_key (i m)) 0) (xm m) (i_p (i m))) (Ret s)
    & forall xm xm' xt, cvpop xm xm' -> cvpop xt (s_x s) -> forall l,
      lim (fun m => Gammat (md m) (xm m l) (xt m l) (i_q (i m)) - Mt_logpdf (md m) (xm m) (xt m) (i_p (i m)) l)
          (Wt xm' (s_x s) (s_p s) l)].

Definition cvQ (q : nat -> Q) (q' : QQ) : Prop := exists c : nat -> R, forall x x' y y', cvX x x' -> cvX y y' ->
  lim (fun m => Gammat (md m) (x m) (y m) (q m) + c m) (Gam x' y' q').

Lemma lw_of_lim (w : nat -> 'I_n -> R) l : (forall i, lim (fun m => w m i) (l i)) -> lw_lim w l.
Proof. by move=> H; exists (fun=> 0) => i; apply: lim_ext (H i) => m; rewrite addr0. Qed.

Lemma lw_minus_max (w : nat -> 'I_n -> R) l : lw_lim w l -> lw_lim w (@minus_max n' l).
Proof.
move=> H; have [k e] := minus_maxE l; rewrite (_ : minus_max l = fun i => l i - k); first exact: lw_lim_shift.
exact: functional_extensionality.
Qed.

Lemma cvpop_take (x : nat -> pop) y A : cvpop x y -> cvpop (fun m => take_ax (x m) A) (take_ax y A).
Proof. by move=> H i; rewrite ffunE; have := H (A i); congr cvX; apply: functional_extensionality => m; rewrite ffunE. Qed.

Lemma body_lim c c' i s : cvC c c' -> cvI i s ->
  plim (pair_lim cvC cvO) (fun m => fwd_body rs (md m) true (c m) (i m)) (aux_body rs Wt (@minus_max n') (@normalize n) c' s).
Proof.
case: c' => w' x' [wl xl] [eb ebm ek Hr Hw].
pose k0 := split (i_key (i 0%N)) 1.
apply: (plim_ext (p := fun m => do A_t <- rs k0 (c m).1 (s_bm1 s) (s_b s) true;
  do x_t <- Mt_rvs (md m) (split (i_key (i m)) 0) (take_ax (c m).2 A_t) (i_p (i m));
  let y := upd x_t (i_b (i m)) (i_x (i m)) in
  let lw := log_wt (md m) (take_ax (c m).2 A_t) y (i_p (i m)) (i_q (i m)) in
  Ret ((fun l => exp (lw l), y), (lw, A_t, y)))) => [m|].
  by rewrite /fwd_body /k0 (ek 0%N m) -(ebm m) -(eb m); case: (c m).
rewrite /aux_body /=.
apply: (@plim_bind _ _ _ _ (@same _)) => [|A A' AA].
  by apply: plim_fin => f; apply: rsc.
apply: (plim_ext (p := fun m => do x_t <- Mt_rvs (md m) (split (i_key (i m)) 0) (take_ax (c m).2 A') (i_p (i m));
  let y := upd x_t (i_b (i m)) (i_x (i m)) in
  let lw := log_wt (md m) (take_ax (c m).2 A') y (i_p (i m)) (i_q (i m)) in
  Ret ((fun l => exp (lw l), y), (lw, A', y)))) => [m|]; first by rewrite AA.
have xl' := cvpop_take A' xl.
rewrite -[X in plim _ _ X]/(bind (Ret s) (fun s' => Ret ((normalize (minus_max (Wt (take_ax x' A') (s_x s') (s_p s'))), s_x s'),
  (minus_max (Wt (take_ax x' A') (s_x s') (s_p s')), A', s_x s')))).
apply: (plim_bind (Hr _ _ xl')) => z s' [-> zl].
have lwl : lw_lim (fun m => log_wt (md m) (take_ax (c m).2 A') (upd (z m) (i_b (i m)) (i_x (i m))) (i_p (i m)) (i_q (i m)))
    (Wt (take_ax x' A') (s_x s) (s_p s)).
  apply: (@lw_lim_shiftl _ (fun m l => Gammat (md m) (take_ax (c m).2 A' l) (upd (z m) (i_b (i m)) (i_x (i m)) l) (i_q (i m))
     - Mt_logpdf (md m) (take_ax (c m).2 A') (upd (z m) (i_b (i m)) (i_x (i m))) (i_p (i m)) l)).
  by apply: lw_of_lim => l; apply: Hw.
apply: plim_ret; split; split=> //=; last exact: lw_minus_max.
rewrite normalize_minus_max.
have := normalize_lim lwl; congr positive_limit; apply: functional_extensionality => m.
by apply: functional_extensionality => l; rewrite /log_wt normalize_normalize.
Qed.

(** The forward pass. *)
Section Forward.
Variables (key key' : key) (x0 : X) (xs : seq X) (b0 : 'I_n) (bs : seq 'I_n) (ps : nat -> seq P) (qs : nat -> seq Q).
Variables (y0 : pop) (ys : seq pop) (pp : seq PP).
Hypothesis init : plim (fun z (_ : unit) => cvpop (fun m => upd (z m) b0 x0) y0)
  (fun m => M0_rvs (md m) (split key 0)) (Ret tt).
Hypothesis W0l : forall x, cvpop x y0 -> forall l, lim (fun m => Gamma0 (md m) (x m l) - M0_logpdf (md m) (x m) l) (W0 y0 l).
Hypothesis insl : seq_lim cvI (fun m => inputs (ps m) (qs m) b0 bs (split key 1) 0 xs) (sinputs pp ys b0 bs key' 3).

Lemma forward_lim : plim cvF (fun m => forward_pass rs (md m) key x0 xs b0 bs (ps m) (qs m) true)
  (aux_forward rs W0 Wt (@minus_max n') (@normalize n) key' b0 bs y0 ys pp).
Proof.
rewrite /forward_pass /aux_forward.
pose lw0 := minus_max (W0 y0).
rewrite -[X in plim _ _ X]/(bind (Ret tt) (fun _ => do r <- scan (aux_body rs Wt (@minus_max n') (@normalize n)) (normalize lw0, y0) (sinputs pp ys b0 bs key' 3); let: (_, outs) := r in Ret (lw0, y0, outs))).
apply: (plim_bind init) => z _ zl; cbv zeta.
have lwl : lw_lim (fun m => log_w0 (md m) (upd (z m) b0 x0)) (W0 y0).
  apply: (@lw_lim_shiftl _ (fun m l => Gamma0 (md m) (upd (z m) b0 x0 l) - M0_logpdf (md m) (upd (z m) b0 x0) l)).
  by apply: lw_of_lim => l; apply: W0l.
apply: (@plim_bind _ _ _ _ (pair_lim cvC (seq_lim cvO))).
  apply: (plim_scan body_lim insl); split=> //=; rewrite /lw0 normalize_minus_max.
  have := normalize_lim lwl; congr positive_limit; apply: functional_extensionality => m.
  by apply: functional_extensionality => l; rewrite /log_w0 normalize_normalize.
move=> r [c os] [_ ro] /=.
apply: (plim_ext (p := fun m => Ret (log_w0 (md m) (upd (z m) b0 x0), upd (z m) b0 x0, (r m).2))) => [m|]; first by case: (r m).
by apply: plim_ret; split=> //=; exact: lw_minus_max.
Qed.
End Forward.

(** The backward passes. *)
Section Backward.
Variables (key key' : key) (bT : 'I_n) (qs : nat -> seq Q) (qq : seq QQ).
Hypothesis qsl : seq_lim cvQ qs qq.

Definition cvG (g : nat -> lwts * pop) (g' : lwts * pop) : Prop :=
  lw_lim (fun m => (g m).1) g'.1 /\ cvpop (fun m => (g m).2) g'.2.

Lemma outs_lim outs outs' : seq_lim cvO outs outs' ->
  seq_lim cvG (fun m => [seq (s.1.1, s.2) | s <- outs m]) [seq (s.1.1, s.2) | s <- outs'].
Proof. by apply: seq_lim_map => x y []. Qed.

Lemma gens_lim o o' : cvF o o' -> seq_lim cvG (fun m => gens (o m)) (gens o').
Proof.
case: o' => [[l y] outs'] [/= h1 h2 h3].
exists (fun m => ((o m).1.1, (o m).1.2)), (fun m => [seq (s.1.1, s.2) | s <- (o m).2]); split=> [m||]; last exact: outs_lim.
  by case: (o m) => [[]].
by split.
Qed.

Lemma last_gen_lim o o' : cvF o o' -> cvG (fun m => last_gen (o m)) (last_gen o').
Proof.
case: o' => [[l y] outs'] [/= h1 h2 h3].
have := @seq_lim_last _ _ cvG (fun m => ((o m).1.1, (o m).1.2)) (l, y) _ _ (conj h1 h2) (outs_lim h3).
by congr cvG; apply: functional_extensionality => m; case: (o m) => [[]].
Qed.

Definition cvB (i : nat -> seq nat * pop * lwts * Q) (i' : seq nat * pop * lwts * QQ) : Prop :=
  [/\ forall m k, (i m).1.1.1 = (i k).1.1.1, cvpop (fun m => (i m).1.1.2) i'.1.1.2, lw_lim (fun m => (i m).1.2) i'.1.2 & cvQ (fun m => (i m).2) i'.2].

Lemma bwd_inputs_lim k k' c c' gs gs' q q' : seq_lim cvG gs gs' -> seq_lim cvQ q q' ->
  seq_lim cvB (fun m => bwd_inputs k c (gs m) (q m)) (bwd_inputs k' c' gs' q').
Proof.
elim: gs' c c' gs q q' => [|[l y] gs' IH] c c' gs q q'; first by move=> e _ m; rewrite e.
case=> g [gs1 [e [/= gl gy] gl1]]; case: q' => [|q1' q']; first by move=> eq m; rewrite e eq; case: (g m).
case=> q1 [q2 [eq ql ql1]] /=.
exists (fun m => (split k c, (g m).2, (g m).1, q1 m)), (fun m => bwd_inputs k c.+1 (gs1 m) (q2 m)).
by split=> [m||]; [rewrite e eq; case: (g m)| |exact: IH].
Qed.

Lemma bwd_body_lim x x' i i' : cvX x x' -> cvB i i' ->
  plim (pair_lim cvX (pair_lim cvX (@same 'I_n))) (fun m => bwd_body (Gammat (md m)) (x m) (i m)) (bwd_body Gam x' i').
Proof.
case: i' => [[[k' y] l] q'] xx [ek iy il [cq iq]].
apply: (plim_ext (p := fun m => do B <- choice (i 0%N).1.1.1 (bwd_weights (Gammat (md m)) (x m) (i m).1.1.2 (i m).1.2 (i m).2);
    Ret ((i m).1.1.2 B, ((i m).1.1.2 B, B)))) => [m|].
  by rewrite (ek 0%N m); case: (i m) => [[[]]].
have -> : bwd_body Gam x' (k', y, l, q') = do B <- choice k' (bwd_weights Gam x' y l q'); Ret (y B, (y B, B)) by [].
apply: (@plim_bind _ _ _ _ (@same _)) => [|B B' BB].
  apply: choice_lim; apply: normalize_lim; have [c H] := il.
  set a := fun m => amax (fun l0 => Gammat (md m) ((i m).1.1.2 l0) (x m) (i m).2).
  set a' := amax _; exists (fun m => c m + cq m + a m - a') => j.
  apply: (lim_ext (u := fun m => Gammat (md m) ((i m).1.1.2 j) (x m) (i m).2 + cq m - a' + ((i m).1.2 j + c m))) => [m|].
    rewrite -/(a m); move: (Gammat _ _ _ _) (a m) ((i m).1.2 j) (c m) (cq m) => g0 a0 l0 c0 c1.
    by Rring.
  by apply: lim_add (H j); apply: lim_sub (lim_const _); apply: iq.
apply: (plim_ext (p := fun m => Ret ((i m).1.1.2 B', ((i m).1.1.2 B', B')))) => [m|]; first by rewrite BB.
by apply: plim_ret; split=> //; [exact: iy|split=> //; exact: iy].
Qed.

Lemma mover_lim (C D : Type) (cw : (nat -> C) -> D -> Prop) k k' w l i (K : nat -> 'I_n -> prog C) (H : 'I_n -> prog D) :
  positive_limit w l -> (forall B, plim cw (fun m => K m B) (H B)) ->
  plim cw (fun m => do r <- mv k (w m) i; K m r.1) (do r <- mv k' l i; H r.1).
Proof.
move=> pl KH.
have : plim (@same _) (fun m => do r <- mv k (w m) i; Ret r.1) (do r <- mv k' l i; Ret r.1).
  apply: plim_fin => f; rewrite E_bind; apply: lim_ext (mvc k k' i f pl) => m.
  by rewrite E_bind.
move=> h f g fg.
have h2 : plim cw (fun m => bind (do r <- mv k (w m) i; Ret r.1) (K m)) (bind (do r <- mv k' l i; Ret r.1) H).
  by apply: plim_bind h _ => a b ab; apply: (plim_ext _ (KH b)) => m; rewrite ab.
have := h2 f g fg; rewrite !E_bind => h3.
by apply: lim_ext h3 => m; rewrite !E_bind.
Qed.

(** Paths and indices of the results. *)
Definition cvP (r : nat -> seq X * seq 'I_n) (r' : seq X * seq 'I_n) : Prop :=
  seq_lim cvX (fun m => (r m).1) r'.1 /\ same (fun m => (r m).2) r'.2.

Lemma seq_same (A : Type) (a : nat -> seq A) b : seq_lim (@same A) a b -> same a b.
Proof.
elim: b a => [|y b IH] a //=; case=> x [a1 [e xy ab]] m.
by rewrite e xy (IH _ ab).
Qed.

Lemma unzip_lim outs outs' : seq_lim (pair_lim cvX (@same 'I_n)) outs outs' ->
  seq_lim cvX (fun m => unzip1 (outs m)) (unzip1 outs') /\ seq_lim (@same 'I_n) (fun m => unzip2 (outs m)) (unzip2 outs').
Proof. by move=> h; split; apply: seq_lim_map h => x y []. Qed.

Lemma sampling_lim o o' : cvF o o' ->
  plim cvP (fun m => backward_sampling_pass mv (Gammat (md m)) key (qs m) bT (o m) true)
           (backward_sampling_pass mv Gam key' qq bT o' true).
Proof.
move=> oo; have gl := gens_lim oo; have ll := last_gen_lim oo.
pose K m B := do r <- scan (bwd_body (Gammat (md m))) ((last_gen (o m)).2 B) (bwd_inputs key 0 (behead (rev (gens (o m)))) (rev (qs m)));
  Ret (rev ((last_gen (o m)).2 B :: unzip1 r.2), rev (B :: unzip2 r.2)).
pose H B := do r <- scan (bwd_body Gam) ((last_gen o').2 B) (bwd_inputs key' 0 (behead (rev (gens o'))) (rev qq));
  Ret (rev ((last_gen o').2 B :: unzip1 r.2), rev (B :: unzip2 r.2)).
apply: (plim_ext (p := fun m => do r <- mv (split key (size (gens o')).-1) (normalize (last_gen (o m)).1) bT; K m r.1)) => [m|].
  rewrite /backward_sampling_pass /K (_ : size (gens o') = size (gens (o m))); last by rewrite -(seq_lim_size m gl).
  case: (last_gen _) => lw x /=; congr bind; apply: functional_extensionality => -[B al].
  by congr bind; apply: functional_extensionality => -[].
have -> : backward_sampling_pass mv Gam key' qq bT o' true = do r <- mv (split key' (size (gens o')).-1) (normalize (last_gen o').1) bT; H r.1.
  rewrite /backward_sampling_pass /H; case: (last_gen o') => lw' x' /=.
  by congr bind; apply: functional_extensionality => -[B al]; congr bind; apply: functional_extensionality => -[].
case: ll => lwl xl.
apply: (mover_lim _ _ _ (normalize_lim lwl)).
move=> B; apply: (@plim_bind _ _ _ _ (pair_lim cvX (seq_lim (pair_lim cvX (@same 'I_n))))).
  apply: (plim_scan bwd_body_lim); last exact: xl.
  by apply: bwd_inputs_lim; [apply: seq_lim_behead; apply: seq_lim_rev|apply: seq_lim_rev].
move=> r [c outs] [_ /unzip_lim [h1 h2]]; apply: plim_ret; split.
  by apply: seq_lim_rev; apply: seq_lim_cons.
by apply: seq_same; apply: seq_lim_rev; apply: seq_lim_cons.
Qed.

Lemma scanning_lim o o' : cvF o o' ->
  plim cvP (fun m => backward_scanning_pass mv key bT (o m)) (backward_scanning_pass mv key' bT o').
Proof.
move=> oo; have gl := gens_lim oo; have ll := last_gen_lim oo.
pose K m B := do r <- scan (@scan_body X n') B (zip (behead (rev (unzip2 (gens (o m))))) (rev [seq s.1.2 | s <- (o m).2]));
  Ret (rev ((last_gen (o m)).2 B :: unzip1 r.2), rev (B :: unzip2 r.2)).
pose H B := do r <- scan (@scan_body X n') B (zip (behead (rev (unzip2 (gens o')))) (rev [seq s.1.2 | s <- o'.2]));
  Ret (rev ((last_gen o').2 B :: unzip1 r.2), rev (B :: unzip2 r.2)).
apply: (plim_ext (p := fun m => do r <- mv key (normalize (last_gen (o m)).1) bT; K m r.1)) => [m|].
  rewrite /backward_scanning_pass /K; case: (last_gen _) => lw x /=; congr bind; apply: functional_extensionality => -[B al].
  by congr bind; apply: functional_extensionality => -[].
have -> : backward_scanning_pass mv key' bT o' = do r <- mv key' (normalize (last_gen o').1) bT; H r.1.
  rewrite /backward_scanning_pass /H; case: (last_gen o') => lw' x' /=.
  by congr bind; apply: functional_extensionality => -[B al]; congr bind; apply: functional_extensionality => -[].
case: ll => lwl xl.
apply: (mover_lim _ _ _ (normalize_lim lwl)).
move=> B; apply: (@plim_bind _ _ _ _ (pair_lim (@same 'I_n) (seq_lim (pair_lim cvX (@same 'I_n))))).
  apply: (@plim_scan _ _ _ _ _ _ _ _ (pair_lim cvpop (@same anc))) => //.
    move=> c c' i [i1 i2] cc [/= ii1 ii2].
    apply: (plim_ext (p := fun m => Ret (i2 c', ((i m).1 (i2 c'), i2 c')))) => [m|]; last by apply: plim_ret; split=> //; split=> //; exact: ii1.
    by rewrite -(cc m) -(ii2 m); case: (i m).
  apply: seq_lim_zip.
    apply: seq_lim_behead; apply: seq_lim_rev; apply: seq_lim_map gl => x y [_ h]; exact: h.
  by apply: seq_lim_rev; have [_ _ h] := oo; apply: seq_lim_map h => x y [].
move=> r [c outs] [_ /unzip_lim [h1 h2]]; apply: plim_ret; split.
  by apply: seq_lim_rev; apply: seq_lim_cons.
by apply: seq_same; apply: seq_lim_rev; apply: seq_lim_cons.
Qed.
End Backward.

(** The kernel. *)
Section Kernel.
Variables (key key' : key) (x0 : X) (xs : seq X) (b0 : 'I_n) (bs : seq 'I_n) (ps : nat -> seq P) (qs : nat -> seq Q).
Variables (y0 : pop) (ys : seq pop) (pp : seq PP) (qq : seq QQ) (backward : bool).
Hypothesis init : plim (fun z (_ : unit) => cvpop (fun m => upd (z m) b0 x0) y0)
  (fun m => M0_rvs (md m) (split key 0)) (Ret tt).
Hypothesis W0l : forall x, cvpop x y0 -> forall l, lim (fun m => Gamma0 (md m) (x m l) - M0_logpdf (md m) (x m) l) (W0 y0 l).
Hypothesis insl : seq_lim cvI (fun m => inputs (ps m) (qs m) b0 bs (split key 1) 0 xs) (sinputs pp ys b0 bs key' 3).
Hypothesis qsl : seq_lim cvQ qs qq.

Lemma kernel_lim :
  plim cvP (fun m => drop_weights (kernel rs mv (md m) key x0 xs b0 bs (ps m) (qs m) backward true))
    (drop_weights (do o <- aux_forward rs W0 Wt (@minus_max n') (@normalize n) key' b0 bs y0 ys pp;
                   aux_backward mv Gam key' (last b0 bs) qq backward o)).
Proof.
pose back m o := if backward then backward_sampling_pass mv (Gammat (md m)) (split key 2) (qs m) (last b0 bs) o true
  else backward_scanning_pass mv (split key 2) (last b0 bs) o.
pose back' o := if backward then backward_sampling_pass mv Gam (split key' 2) qq (last b0 bs) o true
  else backward_scanning_pass mv (split key' 2) (last b0 bs) o.
have e : drop_weights (do o <- aux_forward rs W0 Wt (@minus_max n') (@normalize n) key' b0 bs y0 ys pp;
                   aux_backward mv Gam key' (last b0 bs) qq backward o)
  = do o <- aux_forward rs W0 Wt (@minus_max n') (@normalize n) key' b0 bs y0 ys pp; back' o.
  rewrite /drop_weights bind_assoc; congr bind; apply: functional_extensionality => o.
  rewrite /aux_backward -/(back' o) bind_assoc -[RHS]bind_ret; congr bind.
  by apply: functional_extensionality => -[].
rewrite e; apply: (plim_ext (p := fun m => do o <- forward_pass rs (md m) key x0 xs b0 bs (ps m) (qs m) true; back m o)) => [m|].
  rewrite /drop_weights /kernel bind_assoc; congr bind; apply: functional_extensionality => o.
  rewrite -/(back m o) bind_assoc -[LHS]bind_ret; congr bind.
  by apply: functional_extensionality => -[].
apply: (plim_bind (forward_lim init W0l insl)) => o o' oo.
by rewrite /back /back'; case: backward; [exact: sampling_lim|exact: scanning_lim].
Qed.
End Kernel.
End Limit.

(** The same when the limit is a call of csmc.py too. *)
Section Model.
Variables (X : Type) (cvX : (nat -> X) -> X -> Prop) (n' : nat) (P Q PP QQ : Type).
Local Notation n := n'.+1.
Local Notation pop := (pop X n').
Local Notation cvpop := (@cvpop X cvX n').
Variables (rs : resampler n) (mv : mover n).
Hypotheses (rsc : cont_resampler rs) (mvc : cont_mover mv).
Variables (md : nat -> model X n' P Q) (md' : model X n' PP QQ).
Local Notation cvC := (@cvC X cvX n').
Local Notation cvO := (@cvO X cvX n').
Local Notation cvF := (@cvF X cvX n').

(** One time step. *)
Definition cvJ (i : nat -> inp X n' P Q) (j : inp X n' PP QQ) : Prop :=
  [/\ forall m, i_b (i m) = i_b j, forall m, i_bm1 (i m) = i_bm1 j, forall m, i_key (i m) = i_key j,
      forall xm xm', cvpop xm xm' ->
      plim (fun z z' => cvpop (fun m => upd (z m) (i_b (i m)) (i_x (i m))) (upd z' (i_b j) (i_x j)))
        (fun m => Mt_rvs (md m) (split (i_key (i m)) 0) (xm m) (i_p (i m))) (Mt_rvs md' (split (i_key j) 0) xm' (i_p j))
    & forall xm xm' xt xt', cvpop xm xm' -> cvpop xt xt' ->
      lw_lim (fun m l => Gammat (md m) (xm m l) (xt m l) (i_q (i m)) - Mt_logpdf (md m) (xm m) (xt m) (i_p (i m)) l)
          (fun l => Gammat md' (xm' l) (xt' l) (i_q j) - Mt_logpdf md' xm' xt' (i_p j) l)].

Lemma log_wt_lim (md1 : nat -> model X n' P Q) (xm xt : nat -> pop) p q (l : lwts n') :
  lw_lim (fun m l => Gammat (md1 m) (xm m l) (xt m l) (q m) - Mt_logpdf (md1 m) (xm m) (xt m) (p m) l) l ->
  lw_lim (fun m => log_wt (md1 m) (xm m) (xt m) (p m) (q m)) l.
Proof. exact: lw_lim_shiftl. Qed.

Lemma normalize_lwt (P1 Q1 : Type) (m1 : model X n' P1 Q1) xm xt p q : normalize (log_wt m1 xm xt p q) = fun l => exp (log_wt m1 xm xt p q l).
Proof. by apply: functional_extensionality => l; rewrite /log_wt normalize_normalize. Qed.

Lemma body_lim2 c c' i j : cvC c c' -> cvJ i j ->
  plim (pair_lim cvC cvO) (fun m => fwd_body rs (md m) true (c m) (i m)) (fwd_body rs md' true c' j).
Proof.
case: c' => w' x' [wl xl] [eb ebm ek Hr Hw].
apply: (plim_ext (p := fun m => do A_t <- rs (split (i_key j) 1) (c m).1 (i_bm1 j) (i_b j) true;
  do x_t <- Mt_rvs (md m) (split (i_key (i m)) 0) (take_ax (c m).2 A_t) (i_p (i m));
  let y := upd x_t (i_b (i m)) (i_x (i m)) in
  let lw := log_wt (md m) (take_ax (c m).2 A_t) y (i_p (i m)) (i_q (i m)) in
  Ret ((fun l => exp (lw l), y), (lw, A_t, y)))) => [m|].
  by rewrite /fwd_body -(ek m) -(ebm m) -(eb m); case: (c m).
rewrite /fwd_body.
apply: (@plim_bind _ _ _ _ (@same _)) => [|A A' AA].
  by apply: plim_fin => f; apply: rsc.
apply: (plim_ext (p := fun m => do x_t <- Mt_rvs (md m) (split (i_key (i m)) 0) (take_ax (c m).2 A') (i_p (i m));
  let y := upd x_t (i_b (i m)) (i_x (i m)) in
  let lw := log_wt (md m) (take_ax (c m).2 A') y (i_p (i m)) (i_q (i m)) in
  Ret ((fun l => exp (lw l), y), (lw, A', y)))) => [m|]; first by rewrite AA.
have xl' := cvpop_take A' xl; cbv zeta.
apply: (plim_bind (Hr _ _ xl')) => z z' zl.
have := log_wt_lim (Hw _ _ _ _ xl' zl); set L := fun m => log_wt _ _ _ _ _ => lwl.
have lwl' : lw_lim L (log_wt md' (take_ax x' A') (upd z' (i_b j) (i_x j)) (i_p j) (i_q j)).
  by rewrite /log_wt; exact: lw_lim_shift.
apply: plim_ret; split; split=> //=.
have := normalize_lim lwl'; rewrite normalize_lwt; congr positive_limit.
by apply: functional_extensionality => m; rewrite /L normalize_lwt.
Qed.

Section Pass.
Variables (key : key) (x0 : X) (xs : seq X) (b0 : 'I_n) (bs : seq 'I_n) (ps : nat -> seq P) (qs : nat -> seq Q).
Variables (pp : seq PP) (qq : seq QQ) (backward : bool).
Hypothesis init : plim (fun z z' => cvpop (fun m => upd (z m) b0 x0) (upd z' b0 x0))
  (fun m => M0_rvs (md m) (split key 0)) (M0_rvs md' (split key 0)).
Hypothesis W0l : forall x x', cvpop x x' ->
  lw_lim (fun m l => Gamma0 (md m) (x m l) - M0_logpdf (md m) (x m) l) (fun l => Gamma0 md' (x' l) - M0_logpdf md' x' l).
Hypothesis insl : seq_lim cvJ (fun m => inputs (ps m) (qs m) b0 bs (split key 1) 0 xs) (inputs pp qq b0 bs (split key 1) 0 xs).
Hypothesis qsl : seq_lim (cvQ cvX md (Gammat md')) qs qq.

Lemma forward_lim2 : plim cvF (fun m => forward_pass rs (md m) key x0 xs b0 bs (ps m) (qs m) true)
  (forward_pass rs md' key x0 xs b0 bs pp qq true).
Proof.
rewrite /forward_pass.
apply: (plim_bind init) => z z' zl; cbv zeta.
have lwl : lw_lim (fun m => log_w0 (md m) (upd (z m) b0 x0)) (log_w0 md' (upd z' b0 x0)).
  apply: (@lw_lim_shiftl _ (fun m l => Gamma0 (md m) (upd (z m) b0 x0 l) - M0_logpdf (md m) (upd (z m) b0 x0) l)).
  by apply: lw_lim_shift; exact: W0l.
apply: (@plim_bind _ _ _ _ (pair_lim cvC (seq_lim cvO))).
  apply: (plim_scan body_lim2 insl); split=> //=.
  have e (P1 Q1 : Type) (m1 : model X n' P1 Q1) x : normalize (log_w0 m1 x) = fun l => exp (log_w0 m1 x l).
    by apply: functional_extensionality => l; rewrite /log_w0 normalize_normalize.
  have := normalize_lim lwl; rewrite e; congr positive_limit; apply: functional_extensionality => m.
  by rewrite e.
move=> r [c os] [_ ro].
apply: (plim_ext (p := fun m => Ret (log_w0 (md m) (upd (z m) b0 x0), upd (z m) b0 x0, (r m).2))) => [m|]; first by case: (r m).
by apply: plim_ret; split.
Qed.

Lemma kernel_lim2 :
  plim (@cvP X cvX n') (fun m => drop_weights (kernel rs mv (md m) key x0 xs b0 bs (ps m) (qs m) backward true))
    (drop_weights (kernel rs mv md' key x0 xs b0 bs pp qq backward true)).
Proof.
pose back (P1 Q1 : Type) (m1 : model X n' P1 Q1) q1 o := if backward then backward_sampling_pass mv (Gammat m1) (split key 2) q1 (last b0 bs) o true
  else backward_scanning_pass mv (split key 2) (last b0 bs) o.
have e (P1 Q1 : Type) (m1 : model X n' P1 Q1) p1 q1 : drop_weights (kernel rs mv m1 key x0 xs b0 bs p1 q1 backward true)
  = do o <- forward_pass rs m1 key x0 xs b0 bs p1 q1 true; back P1 Q1 m1 q1 o.
  rewrite /drop_weights /kernel bind_assoc; congr bind; apply: functional_extensionality => o.
  rewrite -/(back _ _ m1 q1 o) bind_assoc -[RHS]bind_ret; congr bind.
  by apply: functional_extensionality => -[].
rewrite e; apply: (plim_ext (p := fun m => do o <- forward_pass rs (md m) key x0 xs b0 bs (ps m) (qs m) true; back _ _ (md m) (qs m) o)) => [m|].
  by rewrite e.
apply: (plim_bind forward_lim2) => o o' oo.
by rewrite /back; case: backward; [exact: sampling_lim|exact: scanning_lim].
Qed.
End Pass.
End Model.
