(** * NanAgree: the two models of csmc.py agree when all log-densities are finite (C86). *)
From Coq Require Import Reals Lra FunctionalExtensionality.
From mathcomp Require Import all_ssreflect all_algebra.
From Verif Require Import RInst Prog ProgTheory Resampling Spec ResamplingProofs Csmc CsmcInvariance.
From Verif Require Import NanCsmc NanSpec NanNumbers NanProofs.

Set Implicit Arguments.
Unset Strict Implicit.
Unset Printing Implicit Defensive.
Import GRing.Theory Num.Theory Order.TTheory.
Local Open Scope ring_scope.

Section Numbers.
Variable n' : nat.
Local Notation n := n'.+1.
Implicit Types lw : 'I_n -> R.

Lemma sum_fin (I : Type) (r : seq I) (l : I -> R) :
  \big[xadd/Fin 0]_(i <- r) Fin (l i) = Fin (\sum_(i <- r) l i).
Proof. by elim: r => [|a r IH]; rewrite ?big_nil // !big_cons IH. Qed.

Lemma exps_gt0 lw : 0 < \sum_i exp (lw i).
Proof.
rewrite (bigD1 ord0) //=; apply: ltr_paddr; first by apply: sumr_ge0 => i _; apply: ltW; apply/RltE; exact: exp_pos.
by apply/RltE; exact: exp_pos.
Qed.

Lemma normalize_log_fin lw : xnormalize_log (fun i => Fin (lw i)) = (fun i => Fin (normalize_log lw i)).
Proof.
apply: functional_extensionality => i; rewrite /xnormalize_log /xlogsumexp /=.
by rewrite (sum_fin _ (fun i => exp (lw i))) /= exps_gt0.
Qed.

Lemma normalize_fin lw : xnormalize (fun i => Fin (lw i)) = (fun i => Fin (normalize lw i)).
Proof. by rewrite /xnormalize normalize_log_fin. Qed.

Lemma amax_fin lw : xamax (fun i => Fin (lw i)) = Fin (amax lw).
Proof.
by rewrite /xamax /amax; apply: (big_rec2 (fun a b => a = Fin b)) => // i x y _ ->.
Qed.

Lemma finite_fin lw : finite_weights (fun i => Fin (lw i)) = Some lw.
Proof. by rewrite /finite_weights; case: forallP => // H; exfalso; apply: H. Qed.

Lemma on_weights_fin A lw (g : ('I_n -> R) -> prog A) f :
  E (on_weights (fun i => Fin (lw i)) g) f = E (g lw) (fun a => f (Some a)).
Proof. by rewrite /on_weights finite_fin E_bind. Qed.
End Numbers.

Section Agree.
Variables (X : Type) (n' : nat) (P Q : Type).
Local Notation n := n'.+1.
Local Notation pop := {ffun 'I_n -> X}.
Local Notation anc := {ffun 'I_n -> 'I_n}.
Variables (rs : resampler n) (mv : mover n) (md : model X n' P Q).

(** The callbacks, as functions with values in the IEEE numbers. *)
Definition finite_model : xmodel X n' P Q :=
  XModel (M0_rvs md) (fun x i => Fin (M0_logpdf md x i)) (fun x => Fin (Gamma0 md x))
         (Mt_rvs md) (fun xm xt p i => Fin (Mt_logpdf md xm xt p i))
         (fun x y q => Fin (Gammat md x y q)).

Definition up (lw : 'I_n -> R) : xlwts n' := fun i => Fin (lw i).
Definition up_o (s : lwts n' * anc * pop) : xlwts n' * anc * pop := (up s.1.1, s.1.2, s.2).
Definition up_c (c : ('I_n -> R) * pop) : ('I_n -> xnum) * pop := (up c.1, c.2).
Definition up_i (i : inp X n' P Q) : xinp X n' P Q := XInp (i_p i) (i_q i) (i_bm1 i) (i_b i) (i_key i) (i_x i).
Definition up_f (o : fwd_out X n') : xfwd_out X n' := (up o.1.1, o.1.2, map up_o o.2).
Definition up_g (g : lwts n' * pop) : xlwts n' * pop := (up g.1, g.2).

Lemma E_oscan_scan C I O C' I' O' (body : C -> I -> prog (C * O)) (xbody : C' -> I' -> prog (option (C' * O')))
  (uc : C -> C') (ui : I -> I') (uo : O -> O') :
  (forall c i f, E (xbody (uc c) (ui i)) f = E (body c i) (fun r => f (Some (uc r.1, uo r.2)))) ->
  forall ins c f, E (oscan xbody (uc c) (map ui ins)) f
                  = E (scan body c ins) (fun r => f (Some (uc r.1, map uo r.2))).
Proof.
move=> H; elim=> [|i ins IH] c f //=.
rewrite E_obind H E_bind; apply: eq_E => -[c' o] /=.
rewrite E_obind IH E_bind; by apply: eq_E => -[c'' os].
Qed.

Lemma log_w0_fin x : xlog_w0 finite_model x = up (log_w0 md x).
Proof. exact: normalize_log_fin. Qed.
Lemma log_wt_fin xm xt p q : xlog_wt finite_model xm xt p q = up (log_wt md xm xt p q).
Proof. exact: normalize_log_fin. Qed.

Lemma fwd_body_fin cond c i f :
  E (xfwd_body rs finite_model cond (up_c c) (up_i i)) f
  = E (fwd_body rs md cond c i) (fun r => f (Some (up_c r.1, up_o r.2))).
Proof.
case: c => w x /=; rewrite E_obind on_weights_fin E_bind; apply: eq_E => A.
by rewrite !E_bind; apply: eq_E => y /=; rewrite log_wt_fin.
Qed.

Lemma inputs_fin ps qs b bs k c xs :
  xinputs ps qs b bs k c xs = map up_i (inputs ps qs b bs k c xs).
Proof. by elim: ps qs b bs c xs => [|p ps IH] [|q qs] b [|b' bs] c [|x xs] //=; rewrite IH. Qed.

Lemma forward_fin key x0 xs b0 bs ps qs cond f :
  E (xforward_pass rs finite_model key x0 xs b0 bs ps qs cond) f
  = E (forward_pass rs md key x0 xs b0 bs ps qs cond) (fun o => f (Some (up_f o))).
Proof.
rewrite /xforward_pass /forward_pass !E_bind; apply: eq_E => y.
rewrite log_w0_fin inputs_fin E_obind E_bind.
have := E_oscan_scan (fwd_body_fin cond); set ins := inputs _ _ _ _ _ _ _; set z := (if cond then _ else _).
move=> /(_ ins (fun l => exp (log_w0 md z l), z)) H; rewrite (H _).
by apply: eq_E => -[c outs].
Qed.

Lemma gens_fin o : xgens (up_f o) = map up_g (gens o).
Proof. by case: o => -[lw x] outs /=; rewrite -!map_comp. Qed.

Lemma last_gen_fin o : xlast_gen (up_f o) = up_g (last_gen o).
Proof. by case: o => -[lw x] outs /=; rewrite -(last_map up_g) -!map_comp. Qed.

Definition up_b (i : key * pop * lwts n' * Q) : key * pop * xlwts n' * Q := (i.1.1.1, i.1.1.2, up i.1.2, i.2).

Lemma bwd_inputs_fin k c gs qs :
  xbwd_inputs k c (map up_g gs) qs = map up_b (bwd_inputs k c gs qs).
Proof. by elim: gs c qs => [|[lw x] gs IH] c [|q qs] //=; rewrite IH. Qed.

Lemma bwd_weights_fin x xm lw q :
  xbwd_weights (xGammat finite_model) x xm (up lw) q = up (bwd_weights (Gammat md) x xm lw q).
Proof. by rewrite /xbwd_weights /= amax_fin /= normalize_fin. Qed.

Lemma bwd_body_fin x i f :
  E (xbwd_body (xGammat finite_model) x (up_b i)) f
  = E (bwd_body (Gammat md) x i) (fun r => f (Some (r.1, r.2))).
Proof.
case: i => -[[k xm] lw] q; cbn [xbwd_body bwd_body up_b fst snd]; rewrite E_obind bwd_weights_fin on_weights_fin E_bind.
by apply: eq_E.
Qed.

Lemma sampling_fin key qs b o cond f :
  E (xbackward_sampling_pass mv (xGammat finite_model) key qs b (up_f o) cond) f
  = E (backward_sampling_pass mv (Gammat md) key qs b o cond) (fun r => f (Some r)).
Proof.
rewrite /xbackward_sampling_pass /backward_sampling_pass last_gen_fin gens_fin size_map.
case: (last_gen o) => lw x /=; rewrite E_obind normalize_fin on_weights_fin E_bind.
apply: eq_E => -[B al] /=; rewrite E_obind -map_rev behead_map bwd_inputs_fin E_bind.
rewrite (@E_oscan_scan _ _ _ _ _ _ (bwd_body (Gammat md)) _ id up_b id).
  by apply: eq_E => -[c outs] /=; rewrite map_id.
by move=> c i g; rewrite bwd_body_fin.
Qed.

Lemma scanning_fin key b o f :
  E (xbackward_scanning_pass mv key b (up_f o)) f
  = E (backward_scanning_pass mv key b o) (fun r => f (Some r)).
Proof.
rewrite /xbackward_scanning_pass /backward_scanning_pass last_gen_fin gens_fin.
case: (last_gen o) => lw x /=; rewrite E_obind normalize_fin on_weights_fin E_bind.
apply: eq_E => -[B al] /=; rewrite E_obind E_bind.
have -> : unzip2 (map up_g (gens o)) = unzip2 (gens o) by rewrite /unzip2 -map_comp.
have -> : [seq s.1.2 | s <- map up_o o.2] = [seq s.1.2 | s <- o.2] by rewrite -map_comp.
rewrite -[zip _ _]map_id (@E_oscan_scan _ _ _ _ _ _ (@scan_body X n') _ id id id) //.
  by rewrite map_id; apply: eq_E => -[c outs] /=; rewrite map_id.
by move=> c [y A].
Qed.

Theorem agrees key x0 xs b0 bs ps qs backward cond f :
  E (xkernel rs mv finite_model key x0 xs b0 bs ps qs backward cond) f
  = E (kernel rs mv md key x0 xs b0 bs ps qs backward cond)
      (fun r => f (Some (r.1, [seq (fun i => Fin (lw i)) | lw <- r.2]))).
Proof.
rewrite /xkernel /kernel E_obind forward_fin E_bind; apply: eq_E => o.
rewrite E_obind E_bind gens_fin.
have e : unzip1 (map up_g (gens o)) = map up (unzip1 (gens o)) by rewrite /unzip1 -!map_comp.
case: backward; rewrite ?sampling_fin ?scanning_fin; apply: eq_E => -[ys cs] /=; by rewrite e.
Qed.
End Agree.
