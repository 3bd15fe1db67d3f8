(** * SmcTheory: conditional sequential Monte Carlo with abstract steps.

    Generic invariance results, instantiated later for the kernels of the
    repository.  Sequences run from the most recent time step to the oldest. *)
From Coq Require Import Reals.
From mathcomp Require Import all_ssreflect all_algebra.
From Verif Require Import RInst Prog ProgTheory Resampling Spec ResamplingProofs Csmc.

Set Implicit Arguments.
Unset Strict Implicit.
Unset Printing Implicit Defensive.
Import GRing.Theory Num.Theory Order.TTheory.
Local Open Scope ring_scope.

Section Generic.
Variables (X : Type) (n' : nat).
Local Notation n := n'.+1.
Local Notation pop := (pop X n').
Local Notation anc := (anc n').
Local Notation lwts := (lwts n').
Local Notation Z := (X * 'I_n)%type.

(** A step: conditional resampling, conditional proposal (given ancestors, index
    and value of the reference), log-weights, log-potential of the target. *)
Record gstep := GStep {
  g_rs : ('I_n -> R) -> 'I_n -> 'I_n -> prog anc;
  g_prop : pop -> 'I_n -> X -> prog pop;
  g_lw : pop -> pop -> lwts;
  g_gam : X -> X -> R }.

Record ginit := GInit {
  g0_prop : 'I_n -> X -> prog pop;
  g0_lw : pop -> lwts;
  g0_gam : X -> R }.

(** History of a forward pass: first generation, then the later ones. *)
Definition hist := (lwts * pop * seq (lwts * anc * pop))%type.

Definition hlast (h : hist) : lwts * pop :=
  if h.2 is (lw, A, x) :: _ then (lw, x) else h.1.

Variables (gi : ginit) (z0 : Z).

Fixpoint gfwd (st : seq gstep) (p : seq Z) : prog hist :=
  match st with
  | [::] => let z := head z0 p in
      do x <- g0_prop gi z.2 z.1; Ret ((g0_lw gi x, x), [::])
  | s :: st' =>
      let z := head z0 p in
      do h <- gfwd st' (behead p);
      do A <- g_rs s (normalize (hlast h).1) (head z0 (behead p)).2 z.2;
      let xm := take_ax (hlast h).2 A in
      do xt <- g_prop s xm z.2 z.1;
      Ret (h.1, (g_lw s xm xt, A, xt) :: h.2)
  end.

Fixpoint gtrace (h0 : lwts * pop) (outs : seq (lwts * anc * pop)) (k : 'I_n) : seq Z :=
  match outs with
  | [::] => [:: (h0.2 k, k)]
  | (_, A, x) :: outs' => (x k, k) :: gtrace h0 outs' (A k)
  end.

(** ** Chronological form *)

Lemma gfwd_size st p : always (fun h => size h.2 = size st) (gfwd st p).
Proof.
elim: st p => [|s st IH] p /=.
  by apply/always_bind; apply: always_true.
apply/always_bind; apply: always_imp (IH (behead p)) => h sz.
apply/always_bind; apply: always_true => A; apply/always_bind; apply: always_true => xt /=.
by rewrite sz.
Qed.

(** A forward pass written as a scan. *)
Section Scan.
Variables (I : Type) (body : ('I_n -> R) * pop -> I -> prog ((('I_n -> R) * pop) * (lwts * anc * pop))).
Variables (step_of : I -> gstep) (ref_of : I -> Z) (bm1_of : I -> 'I_n).

Variable good : I -> Prop.
Hypothesis bodyE : forall w x i f, good i ->
  E (body (w, x) i) f
  = E (g_rs (step_of i) w (bm1_of i) (ref_of i).2) (fun A =>
      let xm := take_ax x A in
      E (g_prop (step_of i) xm (ref_of i).2 (ref_of i).1) (fun xt =>
        let lw := g_lw (step_of i) xm xt in
        f ((normalize lw, xt), (lw, A, xt)))).

Fixpoint chained (b : 'I_n) (ins : seq I) : Prop :=
  if ins is i :: ins' then bm1_of i = b /\ chained (ref_of i).2 ins' else True.

Lemma chained_rcons b ins i :
  chained b (rcons ins i) <-> chained b ins /\ bm1_of i = last b [seq (ref_of j).2 | j <- ins].
Proof. by elim: ins b => [|j ins IH] b /=; [tauto | rewrite IH; tauto]. Qed.

Fixpoint all_good (ins : seq I) : Prop := if ins is i :: ins' then good i /\ all_good ins' else True.

Lemma all_good_rcons ins i : all_good (rcons ins i) <-> all_good ins /\ good i.
Proof. by elim: ins => [|j ins IH] /=; [tauto | rewrite IH; tauto]. Qed.

Lemma E_scan_gfwd_on z ins (F : lwts * pop -> ('I_n -> R) * pop -> seq (lwts * anc * pop) -> R) :
  chained z.2 ins -> all_good ins ->
  E (g0_prop gi z.2 z.1) (fun x0 =>
    E (scan body (normalize (g0_lw gi x0), x0) ins)
      (fun co => F (g0_lw gi x0, x0) co.1 co.2))
  = E (gfwd (rev [seq step_of i | i <- ins]) (rev (z :: [seq ref_of i | i <- ins])))
      (fun h => F h.1 (normalize (hlast h).1, (hlast h).2) (rev h.2)).
Proof.
elim/last_ind: ins F => [|ins i IH] F; first by move=> _ _ /=; rewrite E_bind.
move=> /chained_rcons [ch bi] /all_good_rcons [gins gi'].
rewrite !map_rcons -rcons_cons !rev_rcons /= E_bind.
have hd : (head z0 (rev (z :: map ref_of ins))).2 = last z.2 [seq (ref_of j).2 | j <- ins].
  rewrite -nth0 nth_rev //= subn1 /= -last_nth; elim/last_ind: ins {IH ch bi gins} => [|l a _] //=.
  by rewrite !map_rcons !last_rcons.
pose G (h0 : lwts * pop) (c : ('I_n -> R) * pop) outs :=
  E (g_rs (step_of i) c.1 (bm1_of i) (ref_of i).2)
   (fun A => let xm := take_ax c.2 A in
      E (g_prop (step_of i) xm (ref_of i).2 (ref_of i).1) (fun xt =>
        let lw := g_lw (step_of i) xm xt in
        F h0 (normalize lw, xt) (rcons outs (lw, A, xt)))).
transitivity (E (gfwd (rev [seq step_of i | i <- ins]) (rev (z :: [seq ref_of i | i <- ins])))
      (fun h => G h.1 (normalize (hlast h).1, (hlast h).2) (rev h.2))).
  rewrite -IH //; apply: eq_E => x0.
  rewrite -cats1 E_scan_cat; apply: eq_E => -[[w x] outs] /=.
  rewrite E_bind bodyE //=; apply: eq_E => A; apply: eq_E => xt /=.
  by rewrite cats1.
apply: eq_E => h; rewrite E_bind /G bi hd; apply: eq_E => A; rewrite E_bind; apply: eq_E => xt /=.
by rewrite rev_cons.
Qed.

End Scan.

Lemma E_scan_gfwd (I : Type) (body : ('I_n -> R) * pop -> I -> prog ((('I_n -> R) * pop) * (lwts * anc * pop)))
    (step_of : I -> gstep) (ref_of : I -> Z) (bm1_of : I -> 'I_n) :
  (forall w x i f,
    E (body (w, x) i) f
    = E (g_rs (step_of i) w (bm1_of i) (ref_of i).2) (fun A =>
        let xm := take_ax x A in
        E (g_prop (step_of i) xm (ref_of i).2 (ref_of i).1) (fun xt =>
          let lw := g_lw (step_of i) xm xt in
          f ((normalize lw, xt), (lw, A, xt))))) ->
  forall z ins (F : lwts * pop -> ('I_n -> R) * pop -> seq (lwts * anc * pop) -> R),
  chained ref_of bm1_of z.2 ins ->
  E (g0_prop gi z.2 z.1) (fun x0 =>
    E (scan body (normalize (g0_lw gi x0), x0) ins)
      (fun co => F (g0_lw gi x0, x0) co.1 co.2))
  = E (gfwd (rev [seq step_of i | i <- ins]) (rev (z :: [seq ref_of i | i <- ins])))
      (fun h => F h.1 (normalize (hlast h).1, (hlast h).2) (rev h.2)).
Proof.
move=> bodyE z ins F ch; apply: (@E_scan_gfwd_on _ _ _ _ _ (fun _ => True)) => //.
by elim: ins {ch} => [|i ins IH] //=; split.
Qed.


(** Backward sampling. *)
Variable bkey : nat -> key.

Fixpoint gbs (st : seq gstep) (c : nat) (h0 : lwts * pop) (outs : seq (lwts * anc * pop))
   (k : 'I_n) : prog (seq Z) :=
  match st, outs with
  | s :: st', (_, _, x) :: outs' =>
      let l := hlast (h0, outs') in
      do j <- choice (bkey c) (normalize (fun i => g_gam s (l.2 i) (x k) + l.1 i));
      do p <- gbs st' c.+1 h0 outs' j;
      Ret ((x k, k) :: p)
  | _, _ => Ret [:: ((hlast (h0, outs)).2 k, k)]
  end.

Lemma gbs_head st c h j : always (fun p => head z0 p = ((hlast h).2 j, j)) (gbs st c h.1 h.2 j).
Proof.
by case: h => h1 [|[[lw A] x'] outs]; case: st => [|s' st] //= => l; apply/always_bind; apply: always_true.
Qed.

Lemma gbs_proper st' c h0 outs k : proper (gbs st' c h0 outs k).
Proof.
elim: st' c outs k => [|s st' IH] c [|[[lw A] x] outs] k //=.
have pn := normalize_prob (fun i => g_gam s ((hlast (h0, outs)).2 i) (x k) + (hlast (h0, outs)).1 i).
split=> [b||b].
- by rewrite cat_law_prob //; apply: (proj1 pn).
- under eq_bigr do rewrite cat_law_prob //.
  exact: (proj2 pn).
- by apply: proper_bind.
Qed.

Definition rs_ok (s : gstep) : Prop :=
  forall w, prob_vec w -> (exists rho, conditional_of w rho (g_rs s w))
                          /\ (forall i j, proper (g_rs s w i j)).

(** Moving the weight of the reference index into an unconditional draw. *)
Lemma rs_swap s w (b : 'I_n) (h : 'I_n -> anc -> R) : rs_ok s -> prob_vec w ->
  \sum_k w k * E (g_rs s w k b) (h k)
  = \sum_i w i * E (g_rs s w i ord0) (fun A => h (A b) A).
Proof.
move=> rs /rs [[rho co] _].
under eq_bigr do rewrite co.
under [RHS]eq_bigr do rewrite co.
have P c (g : 'I_n -> anc -> R) :
    \sum_k \sum_(A : anc | A c == k) rho A * g k A = \sum_(A : anc) rho A * g (A c) A.
  rewrite [RHS](partition_big (fun A : anc => A c) xpredT) //=.
  by apply: eq_bigr => k _; apply: eq_bigr => A /eqP <-.
by rewrite P (P ord0 (fun _ A => h (A b) A)).
Qed.

Lemma rs_marg s w (b : 'I_n) (h : 'I_n -> R) : rs_ok s -> prob_vec w ->
  \sum_i w i * E (g_rs s w i ord0) (fun A => h (A b)) = \sum_k w k * h k.
Proof.
move=> rs pw; rewrite -(@rs_swap s w b (fun k _ => h k)) //.
apply: eq_bigr => k _; rewrite E_const //; by have [_] := rs _ pw; exact.
Qed.

(** Kernels: forward pass, move of the final index, backward pass. *)
Variable (mv : ('I_n -> R) -> 'I_n -> prog 'I_n).

(** The two backward passes, as continuation from the selected final index. *)
Definition gback (st : seq gstep) (backward : bool) (h : hist) (k : 'I_n) : prog (seq Z) :=
  if backward then gbs st 0 h.1 h.2 k else Ret (gtrace h.1 h.2 k).

Definition gkern (st : seq gstep) (backward : bool) (p : seq Z) : prog (seq Z) :=
  do h <- gfwd st p;
  do k <- mv (normalize (hlast h).1) (head z0 p).2;
  gback st backward h k.

End Generic.

Section Finite.
Variables (X : finType) (n' : nat).
Local Notation n := n'.+1.
Local Notation pop := (pop X n').
Local Notation anc := (anc n').
Local Notation lwts := (lwts n').
Local Notation Z := (X * 'I_n)%type.
Local Notation gstep := (gstep X n').
Local Notation ginit := (ginit X n').
Local Notation hist := (hist X n').
Variables (gi : ginit) (z0 : Z).
Local Notation gfwd := (gfwd gi z0).

(** Sum over all trajectories and index sequences, weighted by the target. *)
Fixpoint psum (st : seq gstep) (F : seq Z -> R) : R :=
  match st with
  | [::] => \sum_b \sum_x exp (g0_gam gi x) * F [:: (x, b)]
  | s :: st' =>
      psum st' (fun p => \sum_b \sum_x exp (g_gam s (head z0 p).1 x) * F ((x, b) :: p))
  end.

(** The weighted unconditional algorithm, as a functional on histories. *)
Fixpoint nsum (st : seq gstep) (G : hist -> R) : R :=
  match st with
  | [::] => \sum_b \sum_x exp (g0_gam gi x) *
      E (g0_prop gi b x) (fun x0 => G ((g0_lw gi x0, x0), [::]))
  | s :: st' =>
      nsum st' (fun h =>
        let W := normalize (hlast h).1 in
        \sum_i W i * E (g_rs s W i ord0) (fun A =>
          let xm := take_ax (hlast h).2 A in
          \sum_b \sum_x exp (g_gam s (xm b) x) *
            E (g_prop s xm b x) (fun xt => G (h.1, (g_lw s xm xt, A, xt) :: h.2))))
  end.

Definition prop_ok (s : gstep) : Prop := forall xm : pop,
  [/\ exists S : pop -> R, forall b F,
        \sum_x exp (g_gam s (xm b) x) * E (g_prop s xm b x) F
        = \sum_xt S xt * exp (g_lw s xm xt b) * F xt,
      forall b x, proper (g_prop s xm b x)
    & forall b x, almost (fun xt : pop => xt b = x) (g_prop s xm b x)].

Definition init_ok : Prop :=
  [/\ exists S : pop -> R, forall b F,
        \sum_x exp (g0_gam gi x) * E (g0_prop gi b x) F
        = \sum_xt S xt * exp (g0_lw gi xt b) * F xt,
      forall b x, proper (g0_prop gi b x)
    & forall b x, almost (fun xt : pop => xt b = x) (g0_prop gi b x)].

Fixpoint steps_ok (st : seq gstep) : Prop :=
  if st is s :: st' then [/\ rs_ok s, prop_ok s & steps_ok st'] else True.

(** Forward sums over the later part of a trajectory. *)
Fixpoint fsum (sts : seq gstep) (z : Z) (F : seq Z -> R) : R :=
  match sts with
  | [::] => F [::]
  | s :: sts' => \sum_b \sum_x exp (g_gam s z.1 x) * fsum sts' (x, b) (fun q => F ((x, b) :: q))
  end.

Lemma eq_fsum sts z F G : F =1 G -> fsum sts z F = fsum sts z G.
Proof.
elim: sts z F G => [|s sts IH] z F G FG /=; first exact: FG.
by apply: eq_bigr => b _; apply: eq_bigr => x _; congr (_ * _); apply: IH => q.
Qed.

Lemma psum_catrev sts st F :
  psum (catrev sts st) F = psum st (fun p => fsum sts (head z0 p) (fun q => F (catrev q p))).
Proof. by elim: sts st F => [|s sts IH] st F //=; rewrite IH. Qed.

Lemma psum_rev sts F :
  psum (rev sts) F = \sum_b \sum_x exp (g0_gam gi x) * fsum sts (x, b) (fun q => F (rev ((x, b) :: q))).
Proof. by rewrite /rev psum_catrev. Qed.

Hypothesis iok : init_ok.

Lemma eq_psum st F G : F =1 G -> psum st F = psum st G.
Proof.
elim: st F G => [|s st IH] F G FG /=.
  by apply: eq_bigr => b _; apply: eq_bigr => x _; rewrite FG.
by apply: IH => p; apply: eq_bigr => b _; apply: eq_bigr => x _; rewrite FG.
Qed.

Lemma eq_nsum st F G : F =1 G -> nsum st F = nsum st G.
Proof.
elim: st F G => [|s st IH] F G FG /=.
  by apply: eq_bigr => b _; apply: eq_bigr => x _; congr (_ * _); apply: eq_E => x0.
apply: IH => h; apply: eq_bigr => i _; congr (_ * _); apply: eq_E => A.
by apply: eq_bigr => b _; apply: eq_bigr => x _; congr (_ * _); apply: eq_E => x0.
Qed.

Lemma gfwd_const st p c : steps_ok st -> E (gfwd st p) (fun _ => c) = c.
Proof.
elim: st p => [|s st IH] p /=.
  by move=> _; rewrite E_bind /= E_const //; case: iok.
move=> [rs pr ok]; rewrite E_bind -[RHS](IH (behead p)) //; apply: eq_E => h.
rewrite E_bind -[RHS](@E_const _ (g_rs s (normalize (hlast h).1) (head z0 (behead p)).2 (head z0 p).2)).
  apply: eq_E => A; rewrite E_bind /= E_const //.
  by case: (pr (take_ax (hlast h).2 A)).
by have [_] := rs _ (normalize_prob (hlast h).1); exact.
Qed.

Lemma weighted_swap (S : pop -> R) (lw : pop -> lwts) (T : 'I_n -> (pop -> R) -> R)
    (F : 'I_n -> pop -> R) :
  (forall b G, T b G = \sum_xt S xt * exp (lw xt b) * G xt) ->
  \sum_b T b (F b) = \sum_b T b (fun xt => \sum_k normalize (lw xt) k * F k xt).
Proof.
move=> H; under eq_bigr do rewrite H.
under [RHS]eq_bigr do rewrite H.
rewrite exchange_big [RHS]exchange_big /=; apply: eq_bigr => xt _.
rewrite -[RHS]mulr_suml mulr_sumr; apply: eq_bigr => b _.
rewrite normalizeE -mulr_sumr -!mulrA; congr (_ * _).
rewrite [RHS]mulrC -!mulrA; congr (_ * _).
rewrite mulrCA mulVf ?mulr1 //; apply: lt0r_neq0; exact: sum_exp_gt0.
Qed.

(** Change of measure: conditional on a reference distributed according to the
    target, the history is that of the weighted algorithm and the reference is
    traced from an index drawn from the final weights. *)
Theorem change_of_measure st (F : hist -> seq Z -> R) : steps_ok st ->
  psum st (fun p => E (gfwd st p) (fun h => F h p))
  = nsum st (fun h => \sum_k normalize (hlast h).1 k * F h (gtrace h.1 h.2 k)).
Proof.
elim: st F => [|s st IH] F /=.
  move=> _; have [[S HS] _ keep] := iok.
  rewrite -(@weighted_swap S (g0_lw gi)
     (fun b G => \sum_x exp (g0_gam gi x) * E (g0_prop gi b x) G)
     (fun b xt => F (g0_lw gi xt, xt, [::]) [:: (xt b, b)])) //=.
  apply: eq_bigr => b _; apply: eq_bigr => x _; congr (_ * _).
  rewrite E_bind /=; apply: eq_E_almost; apply: almost_imp (keep b x) => xt /= <-.
  by [].
move=> [rs pr ok].
transitivity (psum st (fun p => E (gfwd st p) (fun h => \sum_b \sum_x
   exp (g_gam s (head z0 p).1 x) *
   E (g_rs s (normalize (hlast h).1) (head z0 p).2 b) (fun A =>
   E (g_prop s (take_ax (hlast h).2 A) b x) (fun xt =>
     F (h.1, (g_lw s (take_ax (hlast h).2 A) xt, A, xt) :: h.2) ((x, b) :: p)))))).
  apply: eq_psum => p; rewrite E_sum; apply: eq_bigr => b _; rewrite E_sum; apply: eq_bigr => x _.
  rewrite E_scale; congr (_ * _); rewrite E_bind; apply: eq_E => h.
  by rewrite E_bind; apply: eq_E => A; rewrite E_bind.
rewrite (IH (fun h p => _)) //; apply: eq_nsum => h.
set W := normalize _; have pW : prob_vec W by apply: normalize_prob.
have gh k : head z0 (gtrace h.1 h.2 k) = ((hlast h).2 k, k).
  by case: h {W pW} => [[lw x] [|[[lw' A] x'] outs]].
transitivity (\sum_b \sum_k W k * E (g_rs s W k b) (fun A =>
   \sum_x exp (g_gam s ((hlast h).2 k) x) *
   E (g_prop s (take_ax (hlast h).2 A) b x) (fun xt =>
     F (h.1, (g_lw s (take_ax (hlast h).2 A) xt, A, xt) :: h.2) ((x, b) :: gtrace h.1 h.2 k)))).
  rewrite exchange_big /=; apply: eq_bigr => k _; rewrite mulr_sumr; apply: eq_bigr => b _.
  congr (_ * _); rewrite E_sum; apply: eq_bigr => x _.
  by rewrite gh /= E_scale.
rewrite (eq_bigr (fun b : 'I_n => \sum_i W i * E (g_rs s W i ord0) (fun A =>
   \sum_x exp (g_gam s (take_ax (hlast h).2 A b) x) *
   E (g_prop s (take_ax (hlast h).2 A) b x) (fun xt =>
     F (h.1, (g_lw s (take_ax (hlast h).2 A) xt, A, xt) :: h.2)
       ((x, b) :: gtrace h.1 h.2 (A b)))))); last first.
  move=> b _; rewrite (rs_swap b (fun k A => _)) //.
  by apply: eq_bigr => i _; congr (_ * _); apply: eq_E => A; rewrite /take_ax ffunE.
rewrite exchange_big /=; apply: eq_bigr => i _; rewrite -mulr_sumr; congr (_ * _).
rewrite -E_sum; apply: eq_E => A.
set xm := take_ax _ _.
have [[S HS] _ keep] := pr xm.
rewrite -(@weighted_swap S (g_lw s xm)
     (fun b G => \sum_x exp (g_gam s (xm b) x) * E (g_prop s xm b x) G)
     (fun b xt => F (h.1, (g_lw s xm xt, A, xt) :: h.2) ((xt b, b) :: gtrace h.1 h.2 (A b)))) //=.
apply: eq_bigr => b _; apply: eq_bigr => x _; congr (_ * _).
apply: eq_E_almost; apply: almost_imp (keep b x) => xt /= <-.
by [].
Qed.

Lemma psum_fwd st f : steps_ok st -> psum st (fun p => E (gfwd st p) (fun _ => f p)) = psum st f.
Proof. by move=> ok; apply: eq_psum => p; rewrite gfwd_const. Qed.

(** The target, read off the weighted algorithm. *)
Lemma nsum_trace st f : steps_ok st ->
  nsum st (fun h => \sum_k normalize (hlast h).1 k * f (gtrace h.1 h.2 k)) = psum st f.
Proof. by move=> ok; rewrite -(change_of_measure (fun _ => f)) // psum_fwd. Qed.

Variable bkey : nat -> key.
Local Notation gbs := (gbs bkey).

(** Final draw of a backward pass. *)
Lemma nsum_bs st c f : steps_ok st ->
  nsum st (fun h => \sum_k normalize (hlast h).1 k * E (gbs st c h.1 h.2 k) f) = psum st f.
Proof.
elim: st c f => [|s st IH] c f /=.
  by move=> ok; exact: (nsum_trace (st := [::]) f).
move=> [rs pr ok].
rewrite -(IH c.+1) //; apply: eq_nsum => h.
set W := normalize _; have pW : prob_vec W by apply: normalize_prob.
pose bw x := normalize (fun i => g_gam s ((hlast h).2 i) x + (hlast h).1 i).
pose Fb b x := \sum_j bw x j * E (gbs st c.+1 h.1 h.2 j) (fun p => f ((x, b) :: p)).
transitivity (\sum_i W i * E (g_rs s W i ord0) (fun A =>
   \sum_b \sum_x exp (g_gam s ((hlast h).2 (A b)) x) * Fb b x)).
  apply: eq_bigr => i _; congr (_ * _); apply: eq_E => A.
  set xm := take_ax _ _; have [[S HS] pp keep] := pr xm.
  rewrite -(@weighted_swap S (g_lw s xm)
     (fun b G => \sum_x exp (g_gam s (xm b) x) * E (g_prop s xm b x) G)
     (fun b xt => E (gbs (s :: st) c h.1 ((g_lw s xm xt, A, xt) :: h.2) b) f)) //=.
  apply: eq_bigr => b _; apply: eq_bigr => x _; rewrite /xm /take_ax ffunE; congr (_ * _).
  rewrite -[RHS](E_const (m := g_prop s xm b x)) //.
  apply: eq_E_almost; apply: almost_imp (keep b x) => xt /= xtb.
  rewrite -surjective_pairing /Fb -xtb; apply: eq_bigr => j _.
  by rewrite E_bind cat_law_prob //; apply: normalize_prob.
transitivity (\sum_b \sum_k W k * (\sum_x exp (g_gam s ((hlast h).2 k) x) * Fb b x)).
  under [LHS]eq_bigr do rewrite E_sum mulr_sumr.
  rewrite exchange_big /=; apply: eq_bigr => b _.
  by rewrite (rs_marg b (fun k => \sum_x exp (g_gam s ((hlast h).2 k) x) * Fb b x)).
transitivity (\sum_b \sum_x \sum_j W j * exp (g_gam s ((hlast h).2 j) x) *
    E (gbs st c.+1 h.1 h.2 j) (fun p => f ((x, b) :: p))).
  apply: eq_bigr => b _; under eq_bigr do rewrite mulr_sumr.
  rewrite exchange_big /=; apply: eq_bigr => x _.
  under eq_bigr do rewrite mulrA.
  rewrite -mulr_suml /Fb mulr_sumr; apply: eq_bigr => j _; rewrite mulrA; congr (_ * _).
  have eW k : W k * exp (g_gam s ((hlast h).2 k) x)
     = exp (g_gam s ((hlast h).2 k) x + (hlast h).1 k) / (\sum_l exp ((hlast h).1 l)).
    by rewrite /W normalizeE expRD [LHS]mulrC mulrA.
  under eq_bigr do rewrite eW.
  rewrite -mulr_suml eW /bw normalizeE [LHS]mulrC -!mulrA; congr (_ * _).
  by rewrite mulrA mulVf ?mul1r //; apply: lt0r_neq0; exact: sum_exp_gt0.
rewrite [LHS](eq_bigr (fun b => \sum_j W j * \sum_x exp (g_gam s ((hlast h).2 j) x) *
    E (gbs st c.+1 h.1 h.2 j) (fun p => f ((x, b) :: p)))); last first.
  move=> b _; rewrite exchange_big /=; apply: eq_bigr => j _; rewrite mulr_sumr.
  by apply: eq_bigr => x _; rewrite mulrA.
rewrite exchange_big /=; apply: eq_bigr => j _; rewrite -mulr_sumr; congr (_ * _).
rewrite E_sum; apply: eq_bigr => b _; rewrite E_sum; apply: eq_bigr => x _.
rewrite -E_scale; apply: eq_E_always.
have := gbs_head z0 bkey st c.+1 h j.
by apply: always_imp => p ->.
Qed.

(** ** Kernels: forward pass, move of the final index, backward pass. *)
Section Kernels.
Variables (mv : ('I_n -> R) -> 'I_n -> prog 'I_n) (st : seq gstep).
Hypothesis ok : steps_ok st.
Local Notation gback := (gback bkey st).
Local Notation gkern := (gkern gi z0 bkey mv st).

Lemma nsum_back backward f :
  nsum st (fun h => \sum_k normalize (hlast h).1 k * E (gback backward h k) f) = psum st f.
Proof. by case: backward; [apply: nsum_bs | apply: nsum_trace]. Qed.

Lemma gkern_nsum backward f :
  psum st (fun p => E (gkern backward p) f)
  = nsum st (fun h => let W := normalize (hlast h).1 in
      \sum_k W k * E (mv W k) (fun k' => E (gback backward h k') f)).
Proof.
have := change_of_measure (fun h p => E (mv (normalize (hlast h).1) (head z0 p).2)
   (fun k' => E (gback backward h k') f)) ok.
rewrite (@eq_psum st _ (fun p => E (gkern backward p) f)); last first.
  by move=> p; rewrite /gkern E_bind; apply: eq_E => h; rewrite E_bind.
move=> ->; apply: eq_nsum => h; apply: eq_bigr => k _; congr (_ * _).
by congr (E (mv _ _) _); case: h => h0 [|[[lw A] x] outs].
Qed.

Theorem gkern_invariant backward f :
  (forall lw, invariant_move (normalize lw) (mv (normalize lw))) ->
  psum st (fun p => E (gkern backward p) f) = psum st f.
Proof.
move=> inv; rewrite gkern_nsum -[RHS](nsum_back backward); apply: eq_nsum => h /=.
exact: inv.
Qed.

Lemma nsum_sub st' F G : nsum st' (fun h => F h - G h) = nsum st' F - nsum st' G.
Proof.
elim: st' F G => [|s st' IH] F G /=.
  rewrite -sumrB; apply: eq_bigr => b _; rewrite -sumrB; apply: eq_bigr => x _.
  by rewrite E_sub mulrBr.
rewrite -IH; apply: eq_nsum => h; rewrite -sumrB; apply: eq_bigr => i _.
rewrite -mulrBr; congr (_ * _); rewrite -E_sub; apply: eq_E => A.
rewrite -sumrB; apply: eq_bigr => b _; rewrite -sumrB; apply: eq_bigr => x _.
by rewrite E_sub mulrBr.
Qed.

Lemma nsum_ge0 st' F : steps_ok st' -> (forall h, 0 <= F h) -> 0 <= nsum st' F.
Proof.
elim: st' F => [|s st' IH] F /=.
  move=> _ F0; apply: sumr_ge0 => b _; apply: sumr_ge0 => x _.
  by apply: mulr_ge0; [apply/ltW/expR_gt0 | apply: E_ge0 => //; case: iok].
move=> [rs pr ok'] F0; apply: IH => // h /=; apply: sumr_ge0 => i _; apply: mulr_ge0.
  exact/ltW/normalize_gt0.
apply: E_ge0; first by have [_] := rs _ (normalize_prob (hlast h).1); exact.
move=> A; apply: sumr_ge0 => b _; apply: sumr_ge0 => x _.
apply: mulr_ge0; first exact/ltW/expR_gt0.
by apply: E_ge0 => //; case: (pr (take_ax (hlast h).2 A)).
Qed.

Lemma nsum_le st' F G : steps_ok st' -> (forall h, F h <= G h) -> nsum st' F <= nsum st' G.
Proof.
move=> ok' FG; rewrite -subr_ge0 -nsum_sub; apply: nsum_ge0 => // h.
by rewrite subr_ge0.
Qed.

Lemma nsum_const c : nsum st (fun _ => c) = psum st (fun _ => c).
Proof.
rewrite -(@nsum_trace st (fun _ => c)) //; apply: eq_nsum => h.
by rewrite -mulr_suml normalize_sum mul1r.
Qed.

Theorem gkern_error backward f c eps :
  (forall lw g, (forall k, `|g k| <= c) ->
     let W := normalize lw in
     `|\sum_k W k * E (mv W k) g - \sum_k W k * g k| <= eps) ->
  (forall p, `|f p| <= c) ->
  `|psum st (fun p => E (gkern backward p) f) - psum st f| <= psum st (fun _ => eps).
Proof.
move=> inv fc; rewrite gkern_nsum -(nsum_back backward) -nsum_sub -nsum_const.
have bound h : `|\sum_k normalize (hlast h).1 k * E (mv (normalize (hlast h).1) k)
      (fun k' => E (gback backward h k') f) -
    \sum_k normalize (hlast h).1 k * E (gback backward h k) f| <= eps.
  apply: inv => k.
  have pk : proper (gback backward h k) by case: backward => //; exact: gbs_proper.
  rewrite ler_norml -[c in - c](@E_const _ (gback backward h k)) // -E_opp.
  rewrite -[c in _ && (_ <= c)](@E_const _ (gback backward h k)) //.
  by apply/andP; split; apply: E_le => // p; have := fc p; rewrite ler_norml => /andP [].
rewrite ler_norml; apply/andP; split.
  rewrite ler_oppl nsum_sub opprB -nsum_sub; apply: nsum_le => // h.
  by have := bound h; rewrite -normrN opprB ler_norml => /andP [].
by apply: nsum_le => // h; have := bound h; rewrite ler_norml => /andP [].
Qed.

End Kernels.

End Finite.
