(** * FrozenTheory: conditional SMC given all particles.

    As in SmcTheory, but states are of any type and the particles of every
    generation are given.  Sums run over the indices of the reference only; a proposal is the
    density of the other particles at their given values.  Sequences run from the
    most recent time step to the oldest. *)
From Coq Require Import Reals.
From mathcomp Require Import all_ssreflect all_algebra.
From Verif Require Import RInst Prog ProgTheory Resampling Spec ResamplingProofs Csmc SmcTheory.

Set Implicit Arguments.
Unset Strict Implicit.
Unset Printing Implicit Defensive.
Import GRing.Theory Num.Theory Order.TTheory.
Local Open Scope ring_scope.

Section Frozen.
Variables (X : Type) (n' : nat).
Local Notation n := n'.+1.
Local Notation pop := (pop X n').
Local Notation anc := (anc n').
Local Notation lwts := (lwts n').
Local Notation Z := (X * 'I_n)%type.
Local Notation gstep := (gstep X n').
Local Notation ginit := (ginit X n').
Local Notation hist := (hist X n').
Variables (gi : ginit) (y0 : pop) (z0 : Z).

(** A step and the generation of particles it produces. *)
Local Notation step := (gstep * pop)%type.
Local Notation gf st := (gfwd gi z0 (unzip1 st)).

(** Sum over all sequences of indices, weighted by the target of the particles they pick. *)
Fixpoint zsum (st : seq step) (F : seq Z -> R) : R :=
  match st with
  | [::] => \sum_b exp (g0_gam gi (y0 b)) * F [:: (y0 b, b)]
  | s :: st' =>
      zsum st' (fun p => \sum_b exp (g_gam s.1 (head z0 p).1 (s.2 b)) * F ((s.2 b, b) :: p))
  end.

(** The weighted unconditional algorithm. *)
Fixpoint znsum (st : seq step) (G : hist -> R) : R :=
  match st with
  | [::] => \sum_b exp (g0_gam gi (y0 b)) *
      E (g0_prop gi b (y0 b)) (fun x0 => G ((g0_lw gi x0, x0), [::]))
  | s :: st' =>
      znsum st' (fun h =>
        let W := normalize (hlast h).1 in
        \sum_i W i * E (g_rs s.1 W i ord0) (fun A =>
          let xm := take_ax (hlast h).2 A in
          \sum_b exp (g_gam s.1 (xm b) (s.2 b)) *
            E (g_prop s.1 xm b (s.2 b)) (fun xt => G (h.1, (g_lw s.1 xm xt, A, xt) :: h.2))))
  end.

Definition zprop_ok (s : step) : Prop := forall xm : pop, exists S : R, 0 <= S /\
  forall b F, exp (g_gam s.1 (xm b) (s.2 b)) * E (g_prop s.1 xm b (s.2 b)) F
              = S * exp (g_lw s.1 xm s.2 b) * F s.2.

Definition zinit_ok : Prop := exists S : R, 0 <= S /\
  forall b F, exp (g0_gam gi (y0 b)) * E (g0_prop gi b (y0 b)) F = S * exp (g0_lw gi y0 b) * F y0.

Fixpoint zsteps_ok (st : seq step) : Prop :=
  if st is s :: st' then [/\ rs_ok s.1, zprop_ok s & zsteps_ok st'] else True.

Hypothesis iok : zinit_ok.

Lemma eq_zsum st F G : F =1 G -> zsum st F = zsum st G.
Proof.
elim: st F G => [|s st IH] F G FG /=; first by apply: eq_bigr => b _; rewrite FG.
by apply: IH => p; apply: eq_bigr => b _; rewrite FG.
Qed.

Lemma eq_znsum st F G : F =1 G -> znsum st F = znsum st G.
Proof.
elim: st F G => [|s st IH] F G FG /=.
  by apply: eq_bigr => b _; congr (_ * _); apply: eq_E => x0.
apply: IH => h; apply: eq_bigr => i _; congr (_ * _); apply: eq_E => A.
by apply: eq_bigr => b _; congr (_ * _); apply: eq_E => x0.
Qed.

Lemma zweighted_swap (S : R) (lw : lwts) (y : pop) (T : 'I_n -> (pop -> R) -> R) (F : 'I_n -> pop -> R) :
  (forall b G, T b G = S * exp (lw b) * G y) ->
  \sum_b T b (F b) = \sum_b T b (fun xt => \sum_k normalize lw k * F k xt).
Proof.
move=> H; under eq_bigr do rewrite H.
under [RHS]eq_bigr do rewrite H.
rewrite -[RHS]mulr_suml mulr_sumr; apply: eq_bigr => b _.
rewrite normalizeE -mulr_sumr -!mulrA; congr (_ * _).
rewrite [RHS]mulrC -!mulrA; congr (_ * _).
rewrite mulrCA mulVf ?mulr1 //; apply: lt0r_neq0; exact: sum_exp_gt0.
Qed.

(** In [zweighted_swap], the log-weights may be read off the generation. *)
Lemma zswap (S : R) (lw : pop -> lwts) (y : pop) (T : 'I_n -> (pop -> R) -> R) (F : 'I_n -> pop -> R) :
  (forall b G, T b G = S * exp (lw y b) * G y) ->
  \sum_b T b (F b) = \sum_b T b (fun xt => \sum_k normalize (lw xt) k * F k xt).
Proof. by move=> H; rewrite (zweighted_swap F H); apply: eq_bigr => b _; rewrite !H. Qed.

Lemma zkeep (S e : R) (m : prog pop) (y : pop) (l : R) (F G : pop -> R) :
  (forall H, e * E m H = S * l * H y) -> F y = G y -> e * E m F = e * E m G.
Proof. by move=> H FG; rewrite !H FG. Qed.

Theorem zchange_of_measure st (F : hist -> seq Z -> R) : zsteps_ok st ->
  zsum st (fun p => E (gf st p) (fun h => F h p))
  = znsum st (fun h => \sum_k normalize (hlast h).1 k * F h (gtrace h.1 h.2 k)).
Proof.
elim: st F => [|s st IH] F /=.
  move=> _; have [S [_ HS]] := iok.
  rewrite -(@zswap S (g0_lw gi) y0
     (fun b G => exp (g0_gam gi (y0 b)) * E (g0_prop gi b (y0 b)) G)
     (fun b xt => F (g0_lw gi xt, xt, [::]) [:: (xt b, b)])) //=.
  apply: eq_bigr => b _; rewrite E_bind /=.
  exact: (zkeep (HS b)).
move=> [rs pr ok].
transitivity (zsum st (fun p => E (gf st p) (fun h => \sum_b
   exp (g_gam s.1 (head z0 p).1 (s.2 b)) *
   E (g_rs s.1 (normalize (hlast h).1) (head z0 p).2 b) (fun A =>
   E (g_prop s.1 (take_ax (hlast h).2 A) b (s.2 b)) (fun xt =>
     F (h.1, (g_lw s.1 (take_ax (hlast h).2 A) xt, A, xt) :: h.2) ((s.2 b, b) :: p)))))).
  apply: eq_zsum => p; rewrite E_sum; apply: eq_bigr => b _.
  rewrite E_scale; congr (_ * _); rewrite E_bind; apply: eq_E => h.
  by rewrite E_bind; apply: eq_E => A; rewrite E_bind.
rewrite (IH (fun h p => _)) //; apply: eq_znsum => h.
set W := normalize _; have pW : prob_vec W by apply: normalize_prob.
have gh k : head z0 (gtrace h.1 h.2 k) = ((hlast h).2 k, k).
  by case: h {W pW} => [[lw x] [|[[lw' A] x'] outs]].
transitivity (\sum_b \sum_k W k * E (g_rs s.1 W k b) (fun A =>
   exp (g_gam s.1 ((hlast h).2 k) (s.2 b)) *
   E (g_prop s.1 (take_ax (hlast h).2 A) b (s.2 b)) (fun xt =>
     F (h.1, (g_lw s.1 (take_ax (hlast h).2 A) xt, A, xt) :: h.2) ((s.2 b, b) :: gtrace h.1 h.2 k)))).
  rewrite exchange_big /=; apply: eq_bigr => k _; rewrite mulr_sumr; apply: eq_bigr => b _.
  by congr (_ * _); rewrite gh /= E_scale.
rewrite (eq_bigr (fun b : 'I_n => \sum_i W i * E (g_rs s.1 W i ord0) (fun A =>
   exp (g_gam s.1 (take_ax (hlast h).2 A b) (s.2 b)) *
   E (g_prop s.1 (take_ax (hlast h).2 A) b (s.2 b)) (fun xt =>
     F (h.1, (g_lw s.1 (take_ax (hlast h).2 A) xt, A, xt) :: h.2)
       ((s.2 b, b) :: gtrace h.1 h.2 (A b)))))); last first.
  move=> b _; rewrite (rs_swap b (fun k A => _)) //.
  by apply: eq_bigr => i _; congr (_ * _); apply: eq_E => A; rewrite /take_ax ffunE.
rewrite exchange_big /=; apply: eq_bigr => i _; rewrite -mulr_sumr; congr (_ * _).
rewrite -E_sum; apply: eq_E => A.
set xm := take_ax _ _.
have [S [_ HS]] := pr xm.
rewrite -(@zswap S (g_lw s.1 xm) s.2
     (fun b G => exp (g_gam s.1 (xm b) (s.2 b)) * E (g_prop s.1 xm b (s.2 b)) G)
     (fun b xt => F (h.1, (g_lw s.1 xm xt, A, xt) :: h.2) ((xt b, b) :: gtrace h.1 h.2 (A b)))) //=.
apply: eq_bigr => b _.
exact: (zkeep (HS b)).
Qed.

Lemma znsum_sub st F G : znsum st (fun h => F h - G h) = znsum st F - znsum st G.
Proof.
elim: st F G => [|s st IH] F G /=.
  by rewrite -sumrB; apply: eq_bigr => b _; rewrite E_sub mulrBr.
rewrite -IH; apply: eq_znsum => h; rewrite -sumrB; apply: eq_bigr => i _.
rewrite -mulrBr; congr (_ * _); rewrite -E_sub; apply: eq_E => A.
by rewrite -sumrB; apply: eq_bigr => b _; rewrite E_sub mulrBr.
Qed.

Lemma znsum_ge0 st F : zsteps_ok st -> (forall h, 0 <= F h) -> 0 <= znsum st F.
Proof.
elim: st F => [|s st IH] F /=.
  move=> _ F0; apply: sumr_ge0 => b _; have [S [S0 ->]] := iok.
  by apply: mulr_ge0 => //; apply: mulr_ge0 => //; apply/ltW/expR_gt0.
move=> [rs pr ok] F0; apply: IH => // h /=; apply: sumr_ge0 => i _; apply: mulr_ge0.
  exact/ltW/normalize_gt0.
apply: E_ge0; first by have [_] := rs _ (normalize_prob (hlast h).1); exact.
move=> A; apply: sumr_ge0 => b _; have [S [S0 ->]] := pr (take_ax (hlast h).2 A).
by apply: mulr_ge0 => //; apply: mulr_ge0 => //; apply/ltW/expR_gt0.
Qed.

Lemma znsum_le st F G : zsteps_ok st -> (forall h, F h <= G h) -> znsum st F <= znsum st G.
Proof.
move=> ok FG; rewrite -subr_ge0 -znsum_sub; apply: znsum_ge0 => // h.
by rewrite subr_ge0.
Qed.

(** ** Kernels *)
Section Kernels.
Variables (bkey : nat -> key) (mv : ('I_n -> R) -> 'I_n -> prog 'I_n) (st : seq step).
Hypothesis ok : zsteps_ok st.
Local Notation gbs := (gbs bkey).
Local Notation gback := (gback bkey (unzip1 st)).
Local Notation gkern := (gkern gi z0 bkey mv (unzip1 st)).

Lemma zkern_nsum backward f :
  zsum st (fun p => E (gkern backward p) f)
  = znsum st (fun h => let W := normalize (hlast h).1 in
      \sum_k W k * E (mv W k) (fun k' => E (gback backward h k') f)).
Proof.
have := zchange_of_measure (fun h p => E (mv (normalize (hlast h).1) (head z0 p).2)
   (fun k' => E (gback backward h k') f)) ok.
rewrite (@eq_zsum st _ (fun p => E (gkern backward p) f)); last first.
  by move=> p; rewrite /gkern E_bind; apply: eq_E => h; rewrite E_bind.
move=> ->; apply: eq_znsum => h; apply: eq_bigr => k _; congr (_ * _).
by congr (E (mv _ _) _); case: h => h0 [|[[lw A] x] outs].
Qed.

(** What the backward pass has to give back: the weighted algorithm followed by it returns the
    reference. *)
Definition returns backward : Prop := forall f,
  znsum st (fun h => \sum_k normalize (hlast h).1 k * E (gback backward h k) f)
  = zsum st (fun p => E (gf st p) (fun _ => f p)).

Lemma returns_trace : returns false.
Proof. by move=> f; rewrite (zchange_of_measure (fun _ => f)). Qed.

Theorem zkern_invariant backward f : returns backward ->
  (forall lw, invariant_move (normalize lw) (mv (normalize lw))) ->
  zsum st (fun p => E (gkern backward p) f) = zsum st (fun p => E (gf st p) (fun _ => f p)).
Proof.
move=> ret inv; rewrite zkern_nsum -ret; apply: eq_znsum => h /=.
exact: inv.
Qed.

Theorem zkern_error backward f c eps : returns backward ->
  (forall lw g, (forall k, `|g k| <= c) ->
     let W := normalize lw in
     `|\sum_k W k * E (mv W k) g - \sum_k W k * g k| <= eps) ->
  (forall p, `|f p| <= c) ->
  `|zsum st (fun p => E (gkern backward p) f) - zsum st (fun p => E (gf st p) (fun _ => f p))|
  <= zsum st (fun p => E (gf st p) (fun _ => eps)).
Proof.
move=> ret inv fc; rewrite zkern_nsum -ret -znsum_sub.
rewrite (zchange_of_measure (fun _ _ => eps)) //.
rewrite (@eq_znsum st (fun h => \sum_k normalize (hlast h).1 k * eps) (fun _ => eps)); last first.
  by move=> h; rewrite -mulr_suml normalize_sum mul1r.
have bound h : `|\sum_k normalize (hlast h).1 k * E (mv (normalize (hlast h).1) k)
      (fun k' => E (gback backward h k') f) -
    \sum_k normalize (hlast h).1 k * E (gback backward h k) f| <= eps.
  apply: inv => k.
  have pk : proper (gback backward h k) by case: backward {ret} => //; exact: gbs_proper.
  rewrite ler_norml -[c in - c](@E_const _ (gback backward h k)) // -E_opp.
  rewrite -[c in _ && (_ <= c)](@E_const _ (gback backward h k)) //.
  by apply/andP; split; apply: E_le => // p; have := fc p; rewrite ler_norml => /andP [].
rewrite ler_norml; apply/andP; split.
  rewrite ler_oppl znsum_sub opprB -znsum_sub; apply: znsum_le => // h.
  by have := bound h; rewrite -normrN opprB ler_norml => /andP [].
by apply: znsum_le => // h; have := bound h; rewrite ler_norml => /andP [].
Qed.

End Kernels.

(** ** Particles drawn independently of the ancestors *)

Definition zproper (s : step) : Prop := forall xm b c, E (g_prop s.1 xm b (s.2 b)) (fun _ => c) = c.
Fixpoint zsteps_proper (st : seq step) : Prop :=
  if st is s :: st' then zproper s /\ zsteps_proper st' else True.
Hypothesis ip : forall b c, E (g0_prop gi b (y0 b)) (fun _ => c) = c.

(** The reference at indices [bs] (most recent first) picks its particles. *)
Fixpoint zpath (st : seq step) (bs : seq 'I_n) : seq Z :=
  match st, bs with
  | s :: st', b :: bs' => (s.2 b, b) :: zpath st' bs'
  | [::], b :: _ => [:: (y0 b, b)]
  | _, _ => [::]
  end.

Lemma zsum_ext st F G : (forall bs, size bs = (size st).+1 -> F (zpath st bs) = G (zpath st bs)) ->
  zsum st F = zsum st G.
Proof.
elim: st F G => [|s st IH] F G FG /=.
  by apply: eq_bigr => b _; rewrite (FG [:: b]).
apply: IH => bs sz; apply: eq_bigr => b _; congr (_ * _).
by have := FG (b :: bs); rewrite /= sz; apply.
Qed.

Lemma zfwd_const st bs c : zsteps_ok st -> zsteps_proper st -> size bs = (size st).+1 ->
  E (gf st (zpath st bs)) (fun _ => c) = c.
Proof.
elim: st bs => [|s st IH] [|b bs] //=; first by move=> _ _ _; rewrite E_bind /= ip.
move=> [rs pr ok] [sp pp] [sz]; rewrite E_bind -[RHS](IH bs) //; apply: eq_E => h.
rewrite E_bind -[RHS](@E_const _ (g_rs s.1 (normalize (hlast h).1) (head z0 (zpath st bs)).2 b)).
  by apply: eq_E => A; rewrite E_bind /= sp.
by have [_] := rs _ (normalize_prob (hlast h).1); exact.
Qed.

Lemma zsum_fwd st f : zsteps_ok st -> zsteps_proper st ->
  zsum st (fun p => E (gf st p) (fun _ => f p)) = zsum st f.
Proof. by move=> ok pp; apply: zsum_ext => bs sz; rewrite zfwd_const. Qed.

Lemma znsum_bs bkey st c f : zsteps_ok st -> zsteps_proper st ->
  znsum st (fun h => \sum_k normalize (hlast h).1 k * E (gbs bkey (unzip1 st) c h.1 h.2 k) f) = zsum st f.
Proof.
elim: st c f => [|s st IH] c f ok pp.
  have <- := zsum_fwd f ok pp; rewrite (zchange_of_measure (fun _ => f) ok) /=.
  apply: eq_bigr => b _; congr (_ * _).
move: ok pp => /= [rs pr ok] [sp pp].
rewrite -(IH c.+1) //; apply: eq_znsum => h.
set W := normalize _; have pW : prob_vec W by apply: normalize_prob.
pose bw x := normalize (fun i => g_gam s.1 ((hlast h).2 i) x + (hlast h).1 i).
pose Fb b := \sum_j bw (s.2 b) j * E (gbs bkey (unzip1 st) c.+1 h.1 h.2 j) (fun p => f ((s.2 b, b) :: p)).
transitivity (\sum_i W i * E (g_rs s.1 W i ord0) (fun A =>
   \sum_b exp (g_gam s.1 ((hlast h).2 (A b)) (s.2 b)) * Fb b)).
  apply: eq_bigr => i _; congr (_ * _); apply: eq_E => A.
  set xm := take_ax _ _; have [S [_ HS]] := pr xm.
  rewrite -(@zswap S (g_lw s.1 xm) s.2
     (fun b G => exp (g_gam s.1 (xm b) (s.2 b)) * E (g_prop s.1 xm b (s.2 b)) G)
     (fun b xt => E (gbs bkey (s.1 :: unzip1 st) c h.1 ((g_lw s.1 xm xt, A, xt) :: h.2) b) f)) //=.
  apply: eq_bigr => b _.
  rewrite [RHS](_ : _ = exp (g_gam s.1 (xm b) (s.2 b)) * Fb b); last by rewrite /xm /take_ax ffunE.
  rewrite -[Fb b](sp xm b); apply: (zkeep (HS b)).
  rewrite -surjective_pairing /Fb; apply: eq_bigr => j _.
  by rewrite E_bind cat_law_prob //; apply: normalize_prob.
transitivity (\sum_b \sum_k W k * (exp (g_gam s.1 ((hlast h).2 k) (s.2 b)) * Fb b)).
  under [LHS]eq_bigr do rewrite E_sum mulr_sumr.
  rewrite exchange_big /=; apply: eq_bigr => b _.
  by rewrite (rs_marg b (fun k => exp (g_gam s.1 ((hlast h).2 k) (s.2 b)) * Fb b)).
transitivity (\sum_b \sum_j W j * exp (g_gam s.1 ((hlast h).2 j) (s.2 b)) *
    E (gbs bkey (unzip1 st) c.+1 h.1 h.2 j) (fun p => f ((s.2 b, b) :: p))).
  apply: eq_bigr => b _; under eq_bigr do rewrite mulrA.
  rewrite -mulr_suml /Fb mulr_sumr; apply: eq_bigr => j _; rewrite mulrA; congr (_ * _).
  have eW k : W k * exp (g_gam s.1 ((hlast h).2 k) (s.2 b))
     = exp (g_gam s.1 ((hlast h).2 k) (s.2 b) + (hlast h).1 k) / (\sum_l exp ((hlast h).1 l)).
    by rewrite /W normalizeE expRD [LHS]mulrC mulrA.
  under eq_bigr do rewrite eW.
  rewrite -mulr_suml eW /bw normalizeE [LHS]mulrC -!mulrA; congr (_ * _).
  by rewrite mulrA mulVf ?mul1r //; apply: lt0r_neq0; exact: sum_exp_gt0.
rewrite exchange_big /=; apply: eq_bigr => j _.
under eq_bigr do rewrite -mulrA.
rewrite -mulr_sumr; congr (_ * _).
rewrite E_sum; apply: eq_bigr => b _.
rewrite -E_scale; apply: eq_E_always.
have := gbs_head z0 bkey (unzip1 st) c.+1 h j.
by apply: always_imp => p ->.
Qed.

Lemma returns_bs bkey st backward : zsteps_ok st -> zsteps_proper st -> returns bkey st backward.
Proof.
move=> ok pp; case: backward; last exact: returns_trace.
by move=> f; rewrite /gback znsum_bs // zsum_fwd.
Qed.

End Frozen.
