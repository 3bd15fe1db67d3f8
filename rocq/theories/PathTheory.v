(** * PathTheory: conditional sequential Monte Carlo whose steps depend on whole
    ancestral paths (generalises SmcTheory; used for the smoothing kernels).

    Sequences run from the most recent time step to the oldest. *)
From Coq Require Import Reals.
From mathcomp Require Import all_ssreflect all_algebra.
From Verif Require Import RInst Prog ProgTheory Resampling Spec ResamplingProofs Csmc SmcTheory.

Set Implicit Arguments.
Unset Strict Implicit.
Unset Printing Implicit Defensive.
Import GRing.Theory Num.Theory Order.TTheory.
Local Open Scope ring_scope.

(** ** Histories and programs, for states of any type *)
Section Base.
Variables (X : Type) (n' : nat).
Local Notation n := n'.+1.
Local Notation pop := (pop X n').
Local Notation anc := (anc n').
Local Notation lwts := (lwts n').
Local Notation Z := (X * 'I_n)%type.
Local Notation hist := (hist X n').

(** As [gstep], the previous particles being replaced by their paths. *)
Record pstep := PStep {
  p_rs : ('I_n -> R) -> 'I_n -> 'I_n -> prog anc;
  p_prop : ('I_n -> seq X) -> 'I_n -> X -> prog pop;
  p_lw : ('I_n -> seq X) -> pop -> lwts;
  p_gam : seq X -> X -> R }.

Variables (gi : ginit X n') (z0 : Z).

Definition hpath (h : hist) (k : 'I_n) : seq X := unzip1 (gtrace h.1 h.2 k).
Definition hpaths (h : hist) (A : anc) : 'I_n -> seq X := fun i => hpath h (A i).
Definition hcons (h : hist) (s : pstep) (A : anc) (xt : pop) : hist :=
  (h.1, (p_lw s (hpaths h A) xt, A, xt) :: h.2).

Fixpoint pfwd (st : seq pstep) (p : seq Z) : prog hist :=
  match st with
  | [::] => let z := head z0 p in
      do x <- g0_prop gi z.2 z.1; Ret ((g0_lw gi x, x), [::])
  | s :: st' =>
      let z := head z0 p in
      do h <- pfwd st' (behead p);
      do A <- p_rs s (normalize (hlast h).1) (head z0 (behead p)).2 z.2;
      do xt <- p_prop s (hpaths h A) z.2 z.1;
      Ret (hcons h s A xt)
  end.

Definition prs_ok (s : pstep) : Prop :=
  forall w, prob_vec w -> (exists rho, conditional_of w rho (p_rs s w))
                          /\ (forall i j, proper (p_rs s w i j)).

Lemma pfwd_size st p : always (fun h => size h.2 = size st) (pfwd st p).
Proof.
elim: st p => [|s st IH] p /=.
  by apply/always_bind; apply: always_true.
apply/always_bind; apply: always_imp (IH (behead p)) => h sz.
apply/always_bind; apply: always_true => A; apply/always_bind; apply: always_true => xt /=.
by rewrite sz.
Qed.

Lemma hpath_head (h : hist) k : head z0 (gtrace h.1 h.2 k) = ((hlast h).2 k, k).
Proof. by case: h => [[lw x] [|[[lw' A] x'] outs]]. Qed.

(** ** A forward pass written as a scan that continues a forward pass *)
Section Scan.
Variables (C I O : Type) (body : C -> I -> prog (C * O)).
Variables (step_of : I -> pstep) (ref_of : I -> Z) (bm1_of : I -> 'I_n).
Variables (car : hist -> C) (out : hist -> O).
Variable m0 : nat.

Hypothesis bodyE : forall h i f, (m0 <= size h.2)%N ->
  E (body (car h) i) f
  = E (p_rs (step_of i) (normalize (hlast h).1) (bm1_of i) (ref_of i).2) (fun A =>
      E (p_prop (step_of i) (hpaths h A) (ref_of i).2 (ref_of i).1) (fun xt =>
        let h' := hcons h (step_of i) A xt in f (car h', out h'))).

Fixpoint houts (h0 : lwts * pop) (outs : seq (lwts * anc * pop)) : seq O :=
  if outs is o :: outs' then out (h0, outs) :: houts h0 outs' else [::].

Lemma E_scan_pfwd st0 p0 ins (F : lwts * pop -> seq O -> R) :
  (m0 <= size st0)%N -> chained ref_of bm1_of (head z0 p0).2 ins ->
  E (pfwd st0 p0) (fun h => E (scan body (car h) ins)
      (fun co => F h.1 (rev (houts h.1 h.2) ++ co.2)))
  = E (pfwd (catrev [seq step_of i | i <- ins] st0) (catrev [seq ref_of i | i <- ins] p0))
      (fun h => F h.1 (rev (houts h.1 h.2))).
Proof.
elim: ins st0 p0 => [|i ins IH] st0 p0 le /=.
  by move=> _; apply: eq_E => h; rewrite cats0.
move=> [bi ch]; rewrite -IH //=; last by apply: leqW.
rewrite [RHS]E_bind; apply: eq_E_always; apply: always_imp (pfwd_size st0 p0) => h sz.
rewrite E_bind bodyE ?sz // bi E_bind; apply: eq_E => A; rewrite E_bind; apply: eq_E => xt /=.
rewrite E_bind; apply: eq_E => -[c os] /=.
by rewrite rev_cons cat_rcons.
Qed.

End Scan.

Lemma prs_swap s w (b : 'I_n) (h : 'I_n -> anc -> R) : prs_ok s -> prob_vec w ->
  \sum_k w k * E (p_rs s w k b) (h k)
  = \sum_i w i * E (p_rs s w i ord0) (fun A => h (A b) A).
Proof.
move=> rs pw.
pose g := GStep (p_rs s) (fun _ _ _ => Ret [ffun=> z0.1]) (fun _ _ _ => 0) (fun _ _ => 0) : gstep X n'.
have rg : rs_ok g by move=> w' pw'; have := rs w' pw'.
exact: (rs_swap b h rg pw).
Qed.

Lemma prs_marg s w (b : 'I_n) (h : 'I_n -> R) : prs_ok s -> prob_vec w ->
  \sum_i w i * E (p_rs s w i ord0) (fun A => h (A b)) = \sum_k w k * h k.
Proof.
move=> rs pw; rewrite -(@prs_swap s w b (fun k _ => h k)) //.
apply: eq_bigr => k _; rewrite E_const //; by have [_] := rs _ pw; exact.
Qed.

(** ** Backward sampling
    [Phi]: log-potential of the states already selected, as a function of the path
    up to now. *)
Fixpoint pbs (st : seq pstep) (Phi : seq X -> R) (h0 : lwts * pop) (outs : seq (lwts * anc * pop))
   (k : 'I_n) : prog (seq Z) :=
  match st, outs with
  | s :: st', (_, _, x) :: outs' =>
      let Phi' p := p_gam s p (x k) + Phi (x k :: p) in
      do j <- choice [::] (normalize (fun i => Phi' (hpath (h0, outs') i) + (hlast (h0, outs')).1 i));
      do p <- pbs st' Phi' h0 outs' j;
      Ret ((x k, k) :: p)
  | _, _ => Ret [:: ((hlast (h0, outs)).2 k, k)]
  end.

Lemma pbs_proper st Phi h0 outs k : proper (pbs st Phi h0 outs k).
Proof.
elim: st Phi outs k => [|s st' IH] Phi [|[[lw A] x] outs] k //=.
set W := normalize _; have pn : prob_vec W by exact: normalize_prob.
split=> [b||b].
- by rewrite cat_law_prob //; apply: (proj1 pn).
- under eq_bigr do rewrite cat_law_prob //.
  exact: (proj2 pn).
- by apply: proper_bind.
Qed.

(** ** Kernels *)
Section Kernel.
Variables (mv : ('I_n -> R) -> 'I_n -> prog 'I_n) (st : seq pstep).

Definition pback (backward : bool) (h : hist) (k : 'I_n) : prog (seq Z) :=
  if backward then pbs st (fun=> 0) h.1 h.2 k else Ret (gtrace h.1 h.2 k).

Definition pkern (backward : bool) (p : seq Z) : prog (seq Z) :=
  do h <- pfwd st p;
  do k <- mv (normalize (hlast h).1) (head z0 p).2;
  pback backward h k.

End Kernel.
End Base.

(** ** Finite state spaces *)
Section Generic.
Variables (X : finType) (n' : nat).
Local Notation n := n'.+1.
Local Notation pop := (pop X n').
Local Notation anc := (anc n').
Local Notation lwts := (lwts n').
Local Notation Z := (X * 'I_n)%type.
Local Notation hist := (hist X n').

Local Notation pstep := (pstep X n').
Variables (gi : ginit X n') (z0 : Z).
Local Notation pfwd := (pfwd gi z0).

Fixpoint ppsum (st : seq pstep) (F : seq Z -> R) : R :=
  match st with
  | [::] => \sum_b \sum_x exp (g0_gam gi x) * F [:: (x, b)]
  | s :: st' =>
      ppsum st' (fun p => \sum_b \sum_x exp (p_gam s (unzip1 p) x) * F ((x, b) :: p))
  end.

Fixpoint pnsum (st : seq pstep) (G : hist -> R) : R :=
  match st with
  | [::] => \sum_b \sum_x exp (g0_gam gi x) *
      E (g0_prop gi b x) (fun x0 => G ((g0_lw gi x0, x0), [::]))
  | s :: st' =>
      pnsum st' (fun h =>
        let W := normalize (hlast h).1 in
        \sum_i W i * E (p_rs s W i ord0) (fun A =>
          \sum_b \sum_x exp (p_gam s (hpaths h A b) x) *
            E (p_prop s (hpaths h A) b x) (fun xt => G (hcons h s A xt))))
  end.

Definition pprop_ok (s : pstep) : Prop := forall ps : 'I_n -> seq X,
  [/\ exists S : pop -> R, forall b F,
        \sum_x exp (p_gam s (ps b) x) * E (p_prop s ps b x) F
        = \sum_xt S xt * exp (p_lw s ps xt b) * F xt,
      forall b x, proper (p_prop s ps b x)
    & forall b x, almost (fun xt : pop => xt b = x) (p_prop s ps b x)].

Fixpoint psteps_ok (st : seq pstep) : Prop :=
  if st is s :: st' then [/\ prs_ok s, pprop_ok s & psteps_ok st'] else True.

(** ** Chronological form of the target *)
Fixpoint pfsum (sts : seq pstep) (p : seq Z) (F : seq Z -> R) : R :=
  match sts with
  | [::] => F [::]
  | s :: sts' => \sum_b \sum_x exp (p_gam s (unzip1 p) x) *
      pfsum sts' ((x, b) :: p) (fun q => F ((x, b) :: q))
  end.

Lemma ppsum_catrev sts st F :
  ppsum (catrev sts st) F = ppsum st (fun p => pfsum sts p (fun q => F (catrev q p))).
Proof. by elim: sts st F => [|s sts IH] st F //=; rewrite IH. Qed.

Lemma ppsum_rev sts F :
  ppsum (rev sts) F
  = \sum_b \sum_x exp (g0_gam gi x) * pfsum sts [:: (x, b)] (fun q => F (rev ((x, b) :: q))).
Proof. by rewrite /rev ppsum_catrev. Qed.

(** ** Change of measure *)
Hypothesis iok : init_ok gi.

Lemma eq_ppsum st F G : F =1 G -> ppsum st F = ppsum st G.
Proof.
elim: st F G => [|s st IH] F G FG /=.
  by apply: eq_bigr => b _; apply: eq_bigr => x _; rewrite FG.
by apply: IH => p; apply: eq_bigr => b _; apply: eq_bigr => x _; rewrite FG.
Qed.

Lemma eq_pnsum st F G : F =1 G -> pnsum st F = pnsum st G.
Proof.
elim: st F G => [|s st IH] F G FG /=.
  by apply: eq_bigr => b _; apply: eq_bigr => x _; congr (_ * _); apply: eq_E => x0.
apply: IH => h; apply: eq_bigr => i _; congr (_ * _); apply: eq_E => A.
by apply: eq_bigr => b _; apply: eq_bigr => x _; congr (_ * _); apply: eq_E => x0.
Qed.

(** Only histories of the right length count. *)
Lemma eq_pnsum_size st F G : (forall h, size h.2 = size st -> F h = G h) -> pnsum st F = pnsum st G.
Proof.
elim: st F G => [|s st IH] F G FG /=.
  by apply: eq_bigr => b _; apply: eq_bigr => x _; congr (_ * _); apply: eq_E => x0; apply: FG.
apply: IH => h sz; apply: eq_bigr => i _; congr (_ * _); apply: eq_E => A.
apply: eq_bigr => b _; apply: eq_bigr => x _; congr (_ * _); apply: eq_E => x0; apply: FG.
by rewrite /= sz.
Qed.

Lemma pfwd_const st p c : psteps_ok st -> E (pfwd st p) (fun _ => c) = c.
Proof.
elim: st p => [|s st IH] p /=.
  by move=> _; rewrite E_bind /= E_const //; case: iok.
move=> [rs pr ok]; rewrite E_bind -[RHS](IH (behead p)) //; apply: eq_E => h.
rewrite E_bind -[RHS](@E_const _ (p_rs s (normalize (hlast h).1) (head z0 (behead p)).2 (head z0 p).2)).
  apply: eq_E => A; rewrite E_bind /= E_const //.
  by case: (pr (hpaths h A)).
by have [_] := rs _ (normalize_prob (hlast h).1); exact.
Qed.

Theorem path_change_of_measure st (F : hist -> seq Z -> R) : psteps_ok st ->
  ppsum st (fun p => E (pfwd st p) (fun h => F h p))
  = pnsum st (fun h => \sum_k normalize (hlast h).1 k * F h (gtrace h.1 h.2 k)).
Proof.
elim: st F => [|s st IH] F /=.
  move=> _; have [[S HS] _ keep] := iok.
  rewrite -(@weighted_swap X n' S (g0_lw gi)
     (fun b G => \sum_x exp (g0_gam gi x) * E (g0_prop gi b x) G)
     (fun b xt => F (g0_lw gi xt, xt, [::]) [:: (xt b, b)])) //=.
  apply: eq_bigr => b _; apply: eq_bigr => x _; congr (_ * _).
  rewrite E_bind /=; apply: eq_E_almost; apply: almost_imp (keep b x) => xt /= <-.
  by [].
move=> [rs pr ok].
transitivity (ppsum st (fun p => E (pfwd st p) (fun h => \sum_b \sum_x
   exp (p_gam s (unzip1 p) x) *
   E (p_rs s (normalize (hlast h).1) (head z0 p).2 b) (fun A =>
   E (p_prop s (hpaths h A) b x) (fun xt => F (hcons h s A xt) ((x, b) :: p)))))).
  apply: eq_ppsum => p; rewrite E_sum; apply: eq_bigr => b _; rewrite E_sum; apply: eq_bigr => x _.
  rewrite E_scale; congr (_ * _); rewrite E_bind; apply: eq_E => h.
  by rewrite E_bind; apply: eq_E => A; rewrite E_bind.
rewrite (IH (fun h p => _)) //; apply: eq_pnsum => h.
set W := normalize _; have pW : prob_vec W by apply: normalize_prob.
transitivity (\sum_b \sum_k W k * E (p_rs s W k b) (fun A =>
   \sum_x exp (p_gam s (hpath h k) x) *
   E (p_prop s (hpaths h A) b x) (fun xt => F (hcons h s A xt) ((x, b) :: gtrace h.1 h.2 k)))).
  rewrite exchange_big /=; apply: eq_bigr => k _; rewrite mulr_sumr; apply: eq_bigr => b _.
  congr (_ * _); rewrite E_sum; apply: eq_bigr => x _.
  by rewrite hpath_head /= E_scale.
rewrite (eq_bigr (fun b : 'I_n => \sum_i W i * E (p_rs s W i ord0) (fun A =>
   \sum_x exp (p_gam s (hpaths h A b) x) *
   E (p_prop s (hpaths h A) b x) (fun xt =>
     F (hcons h s A xt) ((x, b) :: gtrace h.1 h.2 (A b)))))); last first.
  by move=> b _; rewrite (prs_swap z0 b (fun k A => _)).
rewrite exchange_big /=; apply: eq_bigr => i _; rewrite -mulr_sumr; congr (_ * _).
rewrite -E_sum; apply: eq_E => A.
have [[S HS] _ keep] := pr (hpaths h A).
rewrite -(@weighted_swap X n' S (p_lw s (hpaths h A))
     (fun b G => \sum_x exp (p_gam s (hpaths h A b) x) * E (p_prop s (hpaths h A) b x) G)
     (fun b xt => F (hcons h s A xt) ((xt b, b) :: gtrace h.1 h.2 (A b)))) //=.
apply: eq_bigr => b _; apply: eq_bigr => x _; congr (_ * _).
apply: eq_E_almost; apply: almost_imp (keep b x) => xt /= <-.
by [].
Qed.

Lemma pnsum_trace st f : psteps_ok st ->
  pnsum st (fun h => \sum_k normalize (hlast h).1 k * f (gtrace h.1 h.2 k)) = ppsum st f.
Proof.
move=> ok; rewrite -(path_change_of_measure (fun _ => f)) //.
by apply: eq_ppsum => p; rewrite pfwd_const.
Qed.

Lemma ppsum_sum st (B : finType) (F : B -> seq Z -> R) :
  ppsum st (fun p => \sum_b F b p) = \sum_b ppsum st (F b).
Proof.
elim: st F => [|s st IH] F /=.
  rewrite [RHS]exchange_big; apply: eq_bigr => b _ /=.
  by rewrite [RHS]exchange_big; apply: eq_bigr => x _ /=; rewrite mulr_sumr.
rewrite -IH; apply: eq_ppsum => p; rewrite [RHS]exchange_big; apply: eq_bigr => b _ /=.
by rewrite [RHS]exchange_big; apply: eq_bigr => x _ /=; rewrite mulr_sumr.
Qed.

Lemma pnsum_sum st (B : finType) (F : B -> hist -> R) :
  pnsum st (fun h => \sum_b F b h) = \sum_b pnsum st (F b).
Proof.
elim: st F => [|s st IH] F /=.
  rewrite [RHS]exchange_big; apply: eq_bigr => b _ /=.
  by rewrite [RHS]exchange_big; apply: eq_bigr => x _ /=; rewrite E_sum mulr_sumr.
rewrite -IH; apply: eq_pnsum => h; rewrite [RHS]exchange_big; apply: eq_bigr => i _ /=.
rewrite -mulr_sumr; congr (_ * _); rewrite -E_sum; apply: eq_E => A.
rewrite [RHS]exchange_big; apply: eq_bigr => b _ /=.
by rewrite [RHS]exchange_big; apply: eq_bigr => x _ /=; rewrite E_sum mulr_sumr.
Qed.

(** ** Backward sampling *)
Lemma pnsum_bs st Phi f : psteps_ok st ->
  pnsum st (fun h => \sum_k normalize (hlast h).1 k * (exp (Phi (hpath h k)) * E (pbs st Phi h.1 h.2 k) f))
  = ppsum st (fun p => exp (Phi (unzip1 p)) * f p).
Proof.
elim: st Phi f => [|s st IH] Phi f /=.
  by move=> ok; exact: (pnsum_trace (st := [::]) (fun p => exp (Phi (unzip1 p)) * f p)).
move=> [rs pr ok].
pose Phi' x p := p_gam s p x + Phi (x :: p).
pose rec b x h := \sum_j normalize (hlast h).1 j *
   (exp (Phi' x (hpath h j)) * E (pbs st (Phi' x) h.1 h.2 j) (fun p => f ((x, b) :: p))).
transitivity (pnsum st (fun h => \sum_b \sum_x rec b x h)); last first.
  rewrite pnsum_sum.
  rewrite (@eq_ppsum _ _ (fun p => \sum_b \sum_x exp (Phi' x (unzip1 p)) * f ((x, b) :: p))); last first.
    move=> p; apply: eq_bigr => b _; apply: eq_bigr => x _ /=.
    by rewrite /Phi' expRD -!mulrA.
  rewrite ppsum_sum; apply: eq_bigr => b _; rewrite pnsum_sum ppsum_sum; apply: eq_bigr => x _.
  exact: (IH (Phi' x) (fun p => f ((x, b) :: p))).
apply: eq_pnsum => h.
set W := normalize _; have pW : prob_vec W by apply: normalize_prob.
pose bw x := normalize (fun i => Phi' x (hpath h i) + (hlast h).1 i).
pose Fb b x := \sum_j bw x j * E (pbs st (Phi' x) h.1 h.2 j) (fun p => f ((x, b) :: p)).
transitivity (\sum_i W i * E (p_rs s W i ord0) (fun A =>
   \sum_b \sum_x exp (Phi' x (hpath h (A b))) * Fb b x)).
  apply: eq_bigr => i _; congr (_ * _); apply: eq_E => A.
  have [[S HS] pp keep] := pr (hpaths h A).
  rewrite -(@weighted_swap X n' S (p_lw s (hpaths h A))
     (fun b G => \sum_x exp (p_gam s (hpaths h A b) x) * E (p_prop s (hpaths h A) b x) G)
     (fun b xt => exp (Phi (hpath (hcons h s A xt) b)) * E (pbs (s :: st) Phi h.1 (hcons h s A xt).2 b) f)) //=.
  apply: eq_bigr => b _; apply: eq_bigr => x _; rewrite /Phi' expRD -mulrA; congr (_ * _).
  rewrite -[RHS](E_const (m := p_prop s (hpaths h A) b x)) //.
  apply: eq_E_almost; apply: almost_imp (keep b x) => xt /= xtb.
  rewrite -xtb /Fb; congr (_ * _); apply: eq_bigr => j _.
  rewrite E_bind cat_law_prob; last exact: normalize_prob.
  by rewrite -surjective_pairing /bw.
transitivity (\sum_b \sum_k W k * (\sum_x exp (Phi' x (hpath h k)) * Fb b x)).
  under [LHS]eq_bigr do rewrite E_sum mulr_sumr.
  rewrite exchange_big /=; apply: eq_bigr => b _.
  by rewrite (prs_marg z0 b (fun k => \sum_x exp (Phi' x (hpath h k)) * Fb b x)).
apply: eq_bigr => b _; under eq_bigr do rewrite mulr_sumr.
rewrite exchange_big /=; apply: eq_bigr => x _.
under eq_bigr do rewrite mulrA.
rewrite -mulr_suml /Fb mulr_sumr; apply: eq_bigr => j _; rewrite !mulrA; congr (_ * _).
have eW k : W k * exp (Phi' x (hpath h k))
     = exp (Phi' x (hpath h k) + (hlast h).1 k) / (\sum_l exp ((hlast h).1 l)).
  by rewrite /W normalizeE expRD [LHS]mulrC mulrA.
under eq_bigr do rewrite eW.
rewrite -mulr_suml -/W eW /bw normalizeE [LHS]mulrC -!mulrA; congr (_ * _).
by rewrite mulrA mulVf ?mul1r //; apply: lt0r_neq0; exact: sum_exp_gt0.
Qed.

(** ** Kernels *)
Section Kernels.
Variables (mv : ('I_n -> R) -> 'I_n -> prog 'I_n) (st : seq pstep).
Hypothesis ok : psteps_ok st.

Local Notation pback := (pback st).
Local Notation pkern := (pkern gi z0 mv st).

Lemma pnsum_back backward f :
  pnsum st (fun h => \sum_k normalize (hlast h).1 k * E (pback backward h k) f) = ppsum st f.
Proof.
case: backward; last exact: pnsum_trace.
have := pnsum_bs (fun=> 0) f ok.
rewrite (@eq_ppsum _ _ f) => [<-|p]; last by rewrite exp_0 mul1r.
by apply: eq_pnsum => h; apply: eq_bigr => k _; rewrite exp_0 mul1r.
Qed.

Lemma pkern_nsum backward f :
  ppsum st (fun p => E (pkern backward p) f)
  = pnsum st (fun h => let W := normalize (hlast h).1 in
      \sum_k W k * E (mv W k) (fun k' => E (pback backward h k') f)).
Proof.
have := path_change_of_measure (fun h p => E (mv (normalize (hlast h).1) (head z0 p).2)
   (fun k' => E (pback backward h k') f)) ok.
rewrite (@eq_ppsum st _ (fun p => E (pkern backward p) f)); last first.
  by move=> p; rewrite /pkern E_bind; apply: eq_E => h; rewrite E_bind.
move=> ->; apply: eq_pnsum => h; apply: eq_bigr => k _; congr (_ * _).
by rewrite hpath_head.
Qed.

Theorem pkern_invariant backward f :
  (forall lw, invariant_move (normalize lw) (mv (normalize lw))) ->
  ppsum st (fun p => E (pkern backward p) f) = ppsum st f.
Proof.
move=> inv; rewrite pkern_nsum -[RHS](pnsum_back backward); apply: eq_pnsum => h /=.
exact: inv.
Qed.

Lemma pnsum_sub st' F G : pnsum st' (fun h => F h - G h) = pnsum st' F - pnsum st' G.
Proof.
elim: st' F G => [|s st' IH] F G /=.
  rewrite -sumrB; apply: eq_bigr => b _; rewrite -sumrB; apply: eq_bigr => x _.
  by rewrite E_sub mulrBr.
rewrite -IH; apply: eq_pnsum => h; rewrite -sumrB; apply: eq_bigr => i _.
rewrite -mulrBr; congr (_ * _); rewrite -E_sub; apply: eq_E => A.
rewrite -sumrB; apply: eq_bigr => b _; rewrite -sumrB; apply: eq_bigr => x _.
by rewrite E_sub mulrBr.
Qed.

Lemma pnsum_ge0 st' F : psteps_ok st' -> (forall h, 0 <= F h) -> 0 <= pnsum st' F.
Proof.
elim: st' F => [|s st' IH] F /=.
  move=> _ F0; apply: sumr_ge0 => b _; apply: sumr_ge0 => x _.
  by apply: mulr_ge0; [apply/ltW/expR_gt0 | apply: E_ge0 => //; case: iok].
move=> [rs pr ok'] F0; apply: IH => // h /=; apply: sumr_ge0 => i _; apply: mulr_ge0.
  exact/ltW/normalize_gt0.
apply: E_ge0; first by have [_] := rs _ (normalize_prob (hlast h).1); exact.
move=> A; apply: sumr_ge0 => b _; apply: sumr_ge0 => x _.
apply: mulr_ge0; first exact/ltW/expR_gt0.
by apply: E_ge0 => //; case: (pr (hpaths h A)).
Qed.

Lemma pnsum_le st' F G : psteps_ok st' -> (forall h, F h <= G h) -> pnsum st' F <= pnsum st' G.
Proof.
move=> ok' FG; rewrite -subr_ge0 -pnsum_sub; apply: pnsum_ge0 => // h.
by rewrite subr_ge0.
Qed.

Lemma pnsum_const c : pnsum st (fun _ => c) = ppsum st (fun _ => c).
Proof.
rewrite -(@pnsum_trace st (fun _ => c)) //; apply: eq_pnsum => h.
by rewrite -mulr_suml normalize_sum mul1r.
Qed.

Theorem pkern_error backward f c eps :
  (forall lw g, (forall k, `|g k| <= c) ->
     let W := normalize lw in
     `|\sum_k W k * E (mv W k) g - \sum_k W k * g k| <= eps) ->
  (forall p, `|f p| <= c) ->
  `|ppsum st (fun p => E (pkern backward p) f) - ppsum st f| <= ppsum st (fun _ => eps).
Proof.
move=> inv fc; rewrite pkern_nsum -(pnsum_back backward) -pnsum_sub -pnsum_const.
have bound h : `|\sum_k normalize (hlast h).1 k * E (mv (normalize (hlast h).1) k)
      (fun k' => E (pback backward h k') f) -
    \sum_k normalize (hlast h).1 k * E (pback backward h k) f| <= eps.
  apply: inv => k.
  have pk : proper (pback backward h k) by case: backward => //; exact: pbs_proper.
  rewrite ler_norml -[c in - c](@E_const _ (pback backward h k)) // -E_opp.
  rewrite -[c in _ && (_ <= c)](@E_const _ (pback backward h k)) //.
  by apply/andP; split; apply: E_le => // p; have := fc p; rewrite ler_norml => /andP [].
rewrite ler_norml; apply/andP; split.
  rewrite ler_oppl pnsum_sub opprB -pnsum_sub; apply: pnsum_le => // h.
  by have := bound h; rewrite -normrN opprB ler_norml => /andP [].
by apply: pnsum_le => // h; have := bound h; rewrite ler_norml => /andP [].
Qed.

End Kernels.

End Generic.
