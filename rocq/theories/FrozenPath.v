(** * FrozenPath: conditional SMC whose steps depend on whole ancestral paths, given all particles.

    As in PathTheory, but states are of any type and the particles of every generation are given;
    sums run over the indices of the reference only (as in FrozenTheory).  Sequences run from the
    most recent time step to the oldest. *)
From Coq Require Import Reals.
From mathcomp Require Import all_ssreflect all_algebra.
From Verif Require Import RInst Prog ProgTheory Resampling Spec ResamplingProofs Csmc SmcTheory PathTheory.

Set Implicit Arguments.
Unset Strict Implicit.
Unset Printing Implicit Defensive.
Import GRing.Theory Num.Theory Order.TTheory.
Local Open Scope ring_scope.

Section Frozen.
Variables (X : Type) (n' : nat).
Local Notation n := n'.+1.
Local Notation pop := (pop X n').
Local Notation anc := (anc n').
Local Notation lwts := (lwts n').
Local Notation Z := (X * 'I_n)%type.
Local Notation pstep := (pstep X n').
Local Notation hist := (hist X n').
Variables (gi : ginit X n') (y0 : pop) (D0 : 'I_n -> R) (z0 : Z).

(** A step, the generation of particles it produces, and the density of the particles other than
    the reference. *)
Record fstep := FStep { f_s : pstep; f_y : pop; f_D : 'I_n -> R }.
Local Notation pf st := (pfwd gi z0 (map f_s st)).

(** Sum over all sequences of indices, weighted by the target of the particles they pick and by
    the density of the other particles. *)
Fixpoint fsum (st : seq fstep) (F : seq Z -> R) : R :=
  match st with
  | [::] => \sum_b exp (g0_gam gi (y0 b)) * D0 b * F [:: (y0 b, b)]
  | s :: st' =>
      fsum st' (fun p => \sum_b exp (p_gam (f_s s) (unzip1 p) (f_y s b)) * f_D s b * F ((f_y s b, b) :: p))
  end.

(** The weighted unconditional algorithm. *)
Fixpoint fnsum (st : seq fstep) (G : hist -> R) : R :=
  match st with
  | [::] => \sum_b exp (g0_gam gi (y0 b)) * D0 b * G ((g0_lw gi y0, y0), [::])
  | s :: st' =>
      fnsum st' (fun h =>
        let W := normalize (hlast h).1 in
        \sum_i W i * E (p_rs (f_s s) W i ord0) (fun A =>
          \sum_b exp (p_gam (f_s s) (hpaths h A b) (f_y s b)) * f_D s b * G (hcons h (f_s s) A (f_y s))))
  end.

Definition fprop_ok (s : fstep) : Prop :=
  (forall ps b x, p_prop (f_s s) ps b x = Ret (f_y s)) /\
  forall ps : 'I_n -> seq X, exists2 S : R, 0 <= S &
    forall b, exp (p_gam (f_s s) (ps b) (f_y s b)) * f_D s b = S * exp (p_lw (f_s s) ps (f_y s) b).

Definition finit_ok : Prop :=
  (forall b x, g0_prop gi b x = Ret y0) /\
  exists2 S : R, 0 <= S & forall b, exp (g0_gam gi (y0 b)) * D0 b = S * exp (g0_lw gi y0 b).

Fixpoint fsteps_ok (st : seq fstep) : Prop :=
  if st is s :: st' then [/\ prs_ok (f_s s), fprop_ok s & fsteps_ok st'] else True.

Hypothesis iok : finit_ok.

Lemma eq_fsum st F G : F =1 G -> fsum st F = fsum st G.
Proof.
elim: st F G => [|s st IH] F G FG /=; first by apply: eq_bigr => b _; rewrite FG.
by apply: IH => p; apply: eq_bigr => b _; rewrite FG.
Qed.

Lemma eq_fnsum st F G : F =1 G -> fnsum st F = fnsum st G.
Proof.
elim: st F G => [|s st IH] F G FG /=; first by apply: eq_bigr => b _; rewrite FG.
apply: IH => h; apply: eq_bigr => i _; congr (_ * _); apply: eq_E => A.
by apply: eq_bigr => b _; rewrite FG.
Qed.

(** ** Chronological form of the target *)
Fixpoint ffsum (sts : seq fstep) (p : seq Z) (F : seq Z -> R) : R :=
  match sts with
  | [::] => F [::]
  | s :: sts' => \sum_b exp (p_gam (f_s s) (unzip1 p) (f_y s b)) * f_D s b *
      ffsum sts' ((f_y s b, b) :: p) (fun q => F ((f_y s b, b) :: q))
  end.

Lemma fsum_catrev sts st F :
  fsum (catrev sts st) F = fsum st (fun p => ffsum sts p (fun q => F (catrev q p))).
Proof. by elim: sts st F => [|s sts IH] st F //=; rewrite IH. Qed.

Lemma fsum_rev sts F :
  fsum (rev sts) F
  = \sum_b exp (g0_gam gi (y0 b)) * D0 b * ffsum sts [:: (y0 b, b)] (fun q => F (rev ((y0 b, b) :: q))).
Proof. by rewrite /rev fsum_catrev. Qed.

(** Indices drawn from the normalised weights. *)
Lemma fswap (S : R) (lw : lwts) (e F : 'I_n -> R) : (forall b, e b = S * exp (lw b)) ->
  \sum_b e b * F b = \sum_b e b * (\sum_k normalize lw k * F k).
Proof.
move=> H; under eq_bigr do rewrite H.
under [RHS]eq_bigr do rewrite H.
rewrite -[RHS]mulr_suml mulr_sumr; apply: eq_bigr => b _.
rewrite normalizeE -mulr_sumr -!mulrA; congr (_ * _).
rewrite [RHS]mulrC -!mulrA; congr (_ * _).
rewrite mulrCA mulVf ?mulr1 //; apply: lt0r_neq0; exact: sum_exp_gt0.
Qed.

Lemma fwd_const st p c : fsteps_ok st -> E (pf st p) (fun _ => c) = c.
Proof.
elim: st p => [|s st IH] p /=; first by move=> _; rewrite E_bind (proj1 iok).
move=> [rs [pr _] ok]; rewrite E_bind -[RHS](IH (behead p)) //; apply: eq_E => h.
rewrite E_bind -[RHS](@E_const _ (p_rs (f_s s) (normalize (hlast h).1) (head z0 (behead p)).2 (head z0 p).2)).
  by apply: eq_E => A; rewrite E_bind pr.
by have [_] := rs _ (normalize_prob (hlast h).1); exact.
Qed.

Theorem fchange_of_measure st (F : hist -> seq Z -> R) : fsteps_ok st ->
  fsum st (fun p => E (pf st p) (fun h => F h p))
  = fnsum st (fun h => \sum_k normalize (hlast h).1 k * F h (gtrace h.1 h.2 k)).
Proof.
elim: st F => [|s st IH] F /=.
  move=> _; have [pr [S _ HS]] := iok.
  rewrite -(fswap (fun b => F (g0_lw gi y0, y0, [::]) [:: (y0 b, b)]) HS).
  by apply: eq_bigr => b _; rewrite E_bind pr.
move=> [rs [pr HS] ok].
transitivity (fsum st (fun p => E (pf st p) (fun h => \sum_b
   exp (p_gam (f_s s) (unzip1 p) (f_y s b)) * f_D s b *
   E (p_rs (f_s s) (normalize (hlast h).1) (head z0 p).2 b) (fun A =>
     F (hcons h (f_s s) A (f_y s)) ((f_y s b, b) :: p))))).
  apply: eq_fsum => p; rewrite E_sum; apply: eq_bigr => b _.
  rewrite E_scale; congr (_ * _); rewrite E_bind; apply: eq_E => h.
  by rewrite E_bind; apply: eq_E => A; rewrite E_bind pr.
rewrite (IH (fun h p => _)) //; apply: eq_fnsum => h.
set W := normalize _; have pW : prob_vec W by apply: normalize_prob.
transitivity (\sum_b \sum_k W k * E (p_rs (f_s s) W k b) (fun A =>
   exp (p_gam (f_s s) (hpath h k) (f_y s b)) * f_D s b *
   F (hcons h (f_s s) A (f_y s)) ((f_y s b, b) :: gtrace h.1 h.2 k))).
  rewrite exchange_big /=; apply: eq_bigr => k _; rewrite mulr_sumr; apply: eq_bigr => b _.
  by congr (_ * _); rewrite hpath_head /= E_scale.
rewrite (eq_bigr (fun b : 'I_n => \sum_i W i * E (p_rs (f_s s) W i ord0) (fun A =>
   exp (p_gam (f_s s) (hpaths h A b) (f_y s b)) * f_D s b *
   F (hcons h (f_s s) A (f_y s)) ((f_y s b, b) :: gtrace h.1 h.2 (A b))))); last first.
  by move=> b _; rewrite (prs_swap z0 b (fun k A => _)).
rewrite exchange_big /=; apply: eq_bigr => i _; rewrite -mulr_sumr; congr (_ * _).
rewrite -E_sum; apply: eq_E => A.
have [S _ HSA] := HS (hpaths h A).
exact: (fswap (fun b => F (hcons h (f_s s) A (f_y s)) ((f_y s b, b) :: gtrace h.1 h.2 (A b))) HSA).
Qed.

Lemma fnsum_trace st f : fsteps_ok st ->
  fnsum st (fun h => \sum_k normalize (hlast h).1 k * f (gtrace h.1 h.2 k)) = fsum st f.
Proof.
move=> ok; rewrite -(fchange_of_measure (fun _ => f)) //.
by apply: eq_fsum => p; rewrite fwd_const.
Qed.

Lemma fsum_sum st (B : finType) (F : B -> seq Z -> R) :
  fsum st (fun p => \sum_b F b p) = \sum_b fsum st (F b).
Proof.
elim: st F => [|s st IH] F /=.
  by rewrite [RHS]exchange_big; apply: eq_bigr => b _ /=; rewrite mulr_sumr.
rewrite -IH; apply: eq_fsum => p; rewrite [RHS]exchange_big; apply: eq_bigr => b _ /=.
by rewrite mulr_sumr.
Qed.

Lemma fnsum_sum st (B : finType) (F : B -> hist -> R) :
  fnsum st (fun h => \sum_b F b h) = \sum_b fnsum st (F b).
Proof.
elim: st F => [|s st IH] F /=.
  by rewrite [RHS]exchange_big; apply: eq_bigr => b _ /=; rewrite mulr_sumr.
rewrite -IH; apply: eq_fnsum => h; rewrite [RHS]exchange_big; apply: eq_bigr => i _ /=.
rewrite -mulr_sumr; congr (_ * _); rewrite -E_sum; apply: eq_E => A.
by rewrite [RHS]exchange_big; apply: eq_bigr => b _ /=; rewrite mulr_sumr.
Qed.

Lemma fsum_scale st c F : fsum st (fun p => c * F p) = c * fsum st F.
Proof.
elim: st F => [|s st IH] F /=.
  by rewrite mulr_sumr; apply: eq_bigr => b _; rewrite mulrCA.
rewrite -IH; apply: eq_fsum => p; rewrite mulr_sumr; apply: eq_bigr => b _.
by rewrite mulrCA.
Qed.

Lemma fnsum_scale st c F : fnsum st (fun h => c * F h) = c * fnsum st F.
Proof.
elim: st F => [|s st IH] F /=.
  by rewrite mulr_sumr; apply: eq_bigr => b _; rewrite mulrCA.
rewrite -IH; apply: eq_fnsum => h; rewrite mulr_sumr; apply: eq_bigr => i _.
rewrite mulrCA; congr (_ * _); rewrite -E_scale; apply: eq_E => A.
by rewrite mulr_sumr; apply: eq_bigr => b _; rewrite mulrCA.
Qed.

(** ** Backward sampling *)
Lemma fnsum_bs st Phi f : fsteps_ok st ->
  fnsum st (fun h => \sum_k normalize (hlast h).1 k * (exp (Phi (hpath h k)) * E (pbs (map f_s st) Phi h.1 h.2 k) f))
  = fsum st (fun p => exp (Phi (unzip1 p)) * f p).
Proof.
elim: st Phi f => [|s st IH] Phi f /=.
  by move=> ok; exact: (fnsum_trace (st := [::]) (fun p => exp (Phi (unzip1 p)) * f p)).
move=> [rs [pr HS] ok].
pose Phi' b p := p_gam (f_s s) p (f_y s b) + Phi (f_y s b :: p).
pose rec b h := \sum_j normalize (hlast h).1 j *
   (exp (Phi' b (hpath h j)) * E (pbs (map f_s st) (Phi' b) h.1 h.2 j) (fun p => f ((f_y s b, b) :: p))).
transitivity (fnsum st (fun h => \sum_b f_D s b * rec b h)); last first.
  rewrite fnsum_sum.
  rewrite (@eq_fsum _ _ (fun p => \sum_b f_D s b * (exp (Phi' b (unzip1 p)) * f ((f_y s b, b) :: p)))); last first.
    move=> p; apply: eq_bigr => b _ /=; rewrite /Phi' expRD.
    by move: (exp _) (exp _) (f_D s b) (f _) => x y z t; Rring.
  rewrite fsum_sum; apply: eq_bigr => b _; rewrite fnsum_scale fsum_scale; congr (_ * _).
  exact: (IH (Phi' b) (fun p => f ((f_y s b, b) :: p))).
apply: eq_fnsum => h.
set W := normalize _; have pW : prob_vec W by apply: normalize_prob.
pose bw b := normalize (fun i => Phi' b (hpath h i) + (hlast h).1 i).
pose Fb b := \sum_j bw b j * E (pbs (map f_s st) (Phi' b) h.1 h.2 j) (fun p => f ((f_y s b, b) :: p)).
transitivity (\sum_i W i * E (p_rs (f_s s) W i ord0) (fun A =>
   \sum_b f_D s b * (exp (Phi' b (hpath h (A b))) * Fb b))).
  apply: eq_bigr => i _; congr (_ * _); apply: eq_E => A.
  have [S _ HSA] := HS (hpaths h A).
  rewrite -(fswap (fun b => exp (Phi (hpath (hcons h (f_s s) A (f_y s)) b)) * E (pbs (f_s s :: map f_s st) Phi h.1 (hcons h (f_s s) A (f_y s)).2 b) f) HSA).
  apply: eq_bigr => b _; rewrite [hpath (hcons _ _ _ _) _]/=.
  have -> : E (pbs (f_s s :: map f_s st) Phi h.1 (hcons h (f_s s) A (f_y s)).2 b) f = Fb b.
    rewrite /Fb /=; apply: eq_bigr => j _; rewrite E_bind cat_law_prob; last exact: normalize_prob.
    by rewrite -surjective_pairing.
  rewrite /Phi' expRD /hpath /=; by move: (exp _) (exp _) (f_D s b) (Fb b) => x y z t; Rring.
transitivity (\sum_b \sum_k W k * (f_D s b * (exp (Phi' b (hpath h k)) * Fb b))).
  under [LHS]eq_bigr do rewrite E_sum mulr_sumr.
  rewrite exchange_big /=; apply: eq_bigr => b _.
  by rewrite (prs_marg z0 b (fun k => f_D s b * (exp (Phi' b (hpath h k)) * Fb b))).
apply: eq_bigr => b _; under eq_bigr do rewrite mulrCA.
rewrite -mulr_sumr; congr (_ * _); under eq_bigr do rewrite mulrA.
rewrite -mulr_suml /Fb mulr_sumr; apply: eq_bigr => j _; rewrite !mulrA; congr (_ * _).
have eW k : W k * exp (Phi' b (hpath h k))
     = exp (Phi' b (hpath h k) + (hlast h).1 k) / (\sum_l exp ((hlast h).1 l)).
  by rewrite /W normalizeE expRD [LHS]mulrC mulrA.
under eq_bigr do rewrite eW.
rewrite -mulr_suml -/W eW /bw normalizeE [LHS]mulrC -!mulrA; congr (_ * _).
by rewrite mulrA mulVf ?mul1r //; apply: lt0r_neq0; exact: sum_exp_gt0.
Qed.

Lemma fnsum_sub st F G : fnsum st (fun h => F h - G h) = fnsum st F - fnsum st G.
Proof.
elim: st F G => [|s st IH] F G /=.
  by rewrite -sumrB; apply: eq_bigr => b _; rewrite mulrBr.
rewrite -IH; apply: eq_fnsum => h; rewrite -sumrB; apply: eq_bigr => i _.
rewrite -mulrBr; congr (_ * _); rewrite -E_sub; apply: eq_E => A.
by rewrite -sumrB; apply: eq_bigr => b _; rewrite mulrBr.
Qed.

Lemma fnsum_ge0 st F : fsteps_ok st -> (forall h, 0 <= F h) -> 0 <= fnsum st F.
Proof.
elim: st F => [|s st IH] F /=.
  move=> _ F0; apply: sumr_ge0 => b _; have [_ [S S0 ->]] := iok.
  by apply: mulr_ge0 => //; apply: mulr_ge0 => //; apply/ltW/expR_gt0.
move=> [rs [_ pr] ok] F0; apply: IH => // h /=; apply: sumr_ge0 => i _; apply: mulr_ge0.
  exact/ltW/normalize_gt0.
apply: E_ge0; first by have [_] := rs _ (normalize_prob (hlast h).1); exact.
move=> A; apply: sumr_ge0 => b _; have [S S0 ->] := pr (hpaths h A).
by apply: mulr_ge0 => //; apply: mulr_ge0 => //; apply/ltW/expR_gt0.
Qed.

Lemma fnsum_le st F G : fsteps_ok st -> (forall h, F h <= G h) -> fnsum st F <= fnsum st G.
Proof.
move=> ok FG; rewrite -subr_ge0 -fnsum_sub; apply: fnsum_ge0 => // h.
by rewrite subr_ge0.
Qed.

(** ** Kernels *)
Section Kernels.
Variables (mv : ('I_n -> R) -> 'I_n -> prog 'I_n) (st : seq fstep).
Hypothesis ok : fsteps_ok st.
Local Notation pback := (pback (map f_s st)).
Local Notation pkern := (pkern gi z0 mv (map f_s st)).

Lemma fnsum_back backward f :
  fnsum st (fun h => \sum_k normalize (hlast h).1 k * E (pback backward h k) f) = fsum st f.
Proof.
case: backward; last exact: fnsum_trace.
have := fnsum_bs (fun=> 0) f ok.
rewrite (@eq_fsum _ _ f) => [<-|p]; last by rewrite exp_0 mul1r.
by apply: eq_fnsum => h; apply: eq_bigr => k _; rewrite exp_0 mul1r.
Qed.

Lemma fkern_nsum backward f :
  fsum st (fun p => E (pkern backward p) f)
  = fnsum st (fun h => let W := normalize (hlast h).1 in
      \sum_k W k * E (mv W k) (fun k' => E (pback backward h k') f)).
Proof.
have := fchange_of_measure (fun h p => E (mv (normalize (hlast h).1) (head z0 p).2)
   (fun k' => E (pback backward h k') f)) ok.
rewrite (@eq_fsum st _ (fun p => E (pkern backward p) f)); last first.
  by move=> p; rewrite /pkern E_bind; apply: eq_E => h; rewrite E_bind.
move=> ->; apply: eq_fnsum => h; apply: eq_bigr => k _; congr (_ * _).
by rewrite hpath_head.
Qed.

Theorem fkern_invariant backward f :
  (forall lw, invariant_move (normalize lw) (mv (normalize lw))) ->
  fsum st (fun p => E (pkern backward p) f) = fsum st f.
Proof.
move=> inv; rewrite fkern_nsum -[RHS](fnsum_back backward); apply: eq_fnsum => h /=.
exact: inv.
Qed.

Lemma fnsum_const c : fnsum st (fun _ => c) = fsum st (fun _ => c).
Proof.
rewrite -(@fnsum_trace st (fun _ => c)) //; apply: eq_fnsum => h.
by rewrite -mulr_suml normalize_sum mul1r.
Qed.

Theorem fkern_error backward f c eps :
  (forall lw g, (forall k, `|g k| <= c) ->
     let W := normalize lw in
     `|\sum_k W k * E (mv W k) g - \sum_k W k * g k| <= eps) ->
  (forall p, `|f p| <= c) ->
  `|fsum st (fun p => E (pkern backward p) f) - fsum st f| <= fsum st (fun _ => eps).
Proof.
move=> inv fc; rewrite fkern_nsum -(fnsum_back backward) -fnsum_sub -fnsum_const.
have bound h : `|\sum_k normalize (hlast h).1 k * E (mv (normalize (hlast h).1) k)
      (fun k' => E (pback backward h k') f) -
    \sum_k normalize (hlast h).1 k * E (pback backward h k) f| <= eps.
  apply: inv => k.
  have pk : proper (pback backward h k) by case: backward => //; exact: pbs_proper.
  rewrite ler_norml -[c in - c](@E_const _ (pback backward h k)) // -E_opp.
  rewrite -[c in _ && (_ <= c)](@E_const _ (pback backward h k)) //.
  by apply/andP; split; apply: E_le => // p; have := fc p; rewrite ler_norml => /andP [].
rewrite ler_norml; apply/andP; split.
  rewrite ler_oppl fnsum_sub opprB -fnsum_sub; apply: fnsum_le => // h.
  by have := bound h; rewrite -normrN opprB ler_norml => /andP [].
by apply: fnsum_le => // h; have := bound h; rewrite ler_norml => /andP [].
Qed.
End Kernels.
End Frozen.
