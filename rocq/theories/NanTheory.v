(** * NanTheory: conditional sequential Monte Carlo whose weights may vanish or be undefined.

    Generic invariance results, instantiated in NanProofs.v for csmc.py.  The
    structure is that of SmcTheory.v; a run may stop without result ([None]) when it
    needs weights that are not defined.  Sequences run from the most recent
    time step to the oldest. *)
From Coq Require Import Reals.
From mathcomp Require Import all_ssreflect all_algebra.
From Verif Require Import RInst Prog ProgTheory Resampling Spec ResamplingProofs.

Set Implicit Arguments.
Unset Strict Implicit.
Unset Printing Implicit Defensive.
Import GRing.Theory Num.Theory Order.TTheory.
Local Open Scope ring_scope.

Section Generic.
Variables (X : Type) (n' : nat) (L : Type).
Local Notation n := n'.+1.
Local Notation pop := {ffun 'I_n -> X}.
Local Notation anc := {ffun 'I_n -> 'I_n}.
Local Notation Z := (X * 'I_n)%type.

(** Weights recorded as an [L] are usable when [ok]; their normalised values are [W]. *)
Variables (ok : L -> bool) (W : L -> 'I_n -> R).

(** A step: conditional resampling, conditional proposal, weights, weights of the
    backward draw, potential of the target. *)
Record nstep := NStep {
  s_rs : ('I_n -> R) -> 'I_n -> 'I_n -> prog anc;
  s_prop : pop -> 'I_n -> X -> prog pop;
  s_lw : pop -> pop -> L;
  s_bw : pop -> L -> X -> option ('I_n -> R);
  s_gam : X -> X -> R }.

Record ninit := NInit {
  s0_prop : 'I_n -> X -> prog pop;
  s0_lw : pop -> L;
  s0_gam : X -> R }.

Definition nhist := (L * pop * seq (L * anc * pop))%type.

Definition nlast (h : nhist) : L * pop :=
  if h.2 is (lw, A, x) :: _ then (lw, x) else h.1.

Variables (gi : ninit) (z0 : Z).

Fixpoint nfwd (st : seq nstep) (p : seq Z) : prog (option nhist) :=
  match st with
  | [::] => let z := head z0 p in
      do x <- s0_prop gi z.2 z.1; Ret (Some ((s0_lw gi x, x), [::]))
  | s :: st' =>
      let z := head z0 p in
      do o <- nfwd st' (behead p);
      if o is Some h then
        if ok (nlast h).1 then
          do A <- s_rs s (W (nlast h).1) (head z0 (behead p)).2 z.2;
          let xm := take_ax (nlast h).2 A in
          do xt <- s_prop s xm z.2 z.1;
          Ret (Some (h.1, (s_lw s xm xt, A, xt) :: h.2))
        else Ret None
      else Ret None
  end.

Fixpoint ntrace (h0 : L * pop) (outs : seq (L * anc * pop)) (k : 'I_n) : seq Z :=
  match outs with
  | [::] => [:: (h0.2 k, k)]
  | (_, A, x) :: outs' => (x k, k) :: ntrace h0 outs' (A k)
  end.

Variable bkey : nat -> key.

Fixpoint nbs (st : seq nstep) (c : nat) (h0 : L * pop) (outs : seq (L * anc * pop))
   (k : 'I_n) : prog (option (seq Z)) :=
  match st, outs with
  | s :: st', (_, _, x) :: outs' =>
      let l := nlast (h0, outs') in
      if s_bw s l.2 l.1 (x k) is Some v then
        do j <- choice (bkey c) v;
        do p <- nbs st' c.+1 h0 outs' j;
        Ret (omap (cons (x k, k)) p)
      else Ret None
  | _, _ => Ret (Some [:: ((nlast (h0, outs)).2 k, k)])
  end.

Variable (mv : ('I_n -> R) -> 'I_n -> prog 'I_n).

Definition nback (st : seq nstep) (backward : bool) (h : nhist) (k : 'I_n) : prog (option (seq Z)) :=
  if backward then nbs st 0 h.1 h.2 k else Ret (Some (ntrace h.1 h.2 k)).

Definition nkern (st : seq nstep) (backward : bool) (p : seq Z) : prog (option (seq Z)) :=
  do o <- nfwd st p;
  if o is Some h then
    if ok (nlast h).1 then do k <- mv (W (nlast h).1) (head z0 p).2; nback st backward h k
    else Ret None
  else Ret None.

Lemma nbs_head st c h j :
  always (fun o => if o is Some p then head z0 p = ((nlast h).2 j, j) else True) (nbs st c h.1 h.2 j).
Proof.
case: h => h1 [|[[lw A] x'] outs]; case: st => [|s' st] //=.
case: (s_bw _ _ _ _) => [v|] //=; move=> l; apply/always_bind; apply: always_true => -[p|] //.
Qed.

Definition rs_ok (s : nstep) : Prop :=
  forall w, prob_vec w -> (exists rho, conditional_of w rho (s_rs s w))
                          /\ (forall i j, proper (s_rs s w i j)).

(** The backward draw has the law proportional to weight times potential; it is
    undefined only when this vanishes. *)
Definition bw_ok (s : nstep) : Prop := forall xl l x,
  if s_bw s xl l x is Some v
  then prob_vec (cat_law v) /\
       forall j, (\sum_k W l k * s_gam s (xl k) x) * cat_law v j = W l j * s_gam s (xl j) x
  else forall k, W l k * s_gam s (xl k) x = 0.

Lemma rs_swap s w (b : 'I_n) (h : 'I_n -> anc -> R) : rs_ok s -> prob_vec w ->
  \sum_k w k * E (s_rs s w k b) (h k)
  = \sum_i w i * E (s_rs s w i ord0) (fun A => h (A b) A).
Proof.
move=> rs /rs [[rho co] _].
under eq_bigr do rewrite co.
under [RHS]eq_bigr do rewrite co.
have P c (g : 'I_n -> anc -> R) :
    \sum_k \sum_(A : anc | A c == k) rho A * g k A = \sum_(A : anc) rho A * g (A c) A.
  rewrite [RHS](partition_big (fun A : anc => A c) xpredT) //=.
  by apply: eq_bigr => k _; apply: eq_bigr => A /eqP <-.
by rewrite P (P ord0 (fun _ A => h (A b) A)).
Qed.

Lemma rs_marg s w (b : 'I_n) (h : 'I_n -> R) : rs_ok s -> prob_vec w ->
  \sum_i w i * E (s_rs s w i ord0) (fun A => h (A b)) = \sum_k w k * h k.
Proof.
move=> rs pw; rewrite -(@rs_swap s w b (fun k _ => h k)) //.
apply: eq_bigr => k _; rewrite E_const //; by have [_] := rs _ pw; exact.
Qed.

End Generic.

Section Finite.
Variables (X : finType) (n' : nat) (L : Type).
Local Notation n := n'.+1.
Local Notation pop := {ffun 'I_n -> X}.
Local Notation anc := {ffun 'I_n -> 'I_n}.
Local Notation Z := (X * 'I_n)%type.
Variables (ok : L -> bool) (W : L -> 'I_n -> R).
Local Notation nstep := (nstep X n' L).
Local Notation ninit := (ninit X n' L).
Local Notation hist := (nhist X n' L).
Variables (gi : ninit) (z0 : Z).
Local Notation nfwd := (nfwd ok W gi z0).

(** Usable weights are a probability vector; the others count for nothing. *)
Hypothesis W_ok : forall l, ok l -> prob_vec (W l).
Hypothesis W_bad : forall l, ~~ ok l -> forall i, W l i = 0.

Fixpoint psum (st : seq nstep) (F : seq Z -> R) : R :=
  match st with
  | [::] => \sum_b \sum_x s0_gam gi x * F [:: (x, b)]
  | s :: st' =>
      psum st' (fun p => \sum_b \sum_x s_gam s (head z0 p).1 x * F ((x, b) :: p))
  end.

Fixpoint nsum (st : seq nstep) (G : hist -> R) : R :=
  match st with
  | [::] => \sum_b \sum_x s0_gam gi x *
      E (s0_prop gi b x) (fun x0 => G ((s0_lw gi x0, x0), [::]))
  | s :: st' =>
      nsum st' (fun h =>
        let w := W (nlast h).1 in
        \sum_i w i * E (s_rs s w i ord0) (fun A =>
          let xm := take_ax (nlast h).2 A in
          \sum_b \sum_x s_gam s (xm b) x *
            E (s_prop s xm b x) (fun xt => G (h.1, (s_lw s xm xt, A, xt) :: h.2))))
  end.

Definition prop_ok (s : nstep) : Prop := forall xm : pop,
  [/\ exists S : pop -> R, forall b F,
        \sum_x s_gam s (xm b) x * E (s_prop s xm b x) F
        = \sum_xt S xt * W (s_lw s xm xt) b * F xt,
      forall b x, proper (s_prop s xm b x)
    & forall b x, almost (fun xt : pop => xt b = x) (s_prop s xm b x)].

Definition init_ok : Prop :=
  [/\ forall x, 0 <= s0_gam gi x,
      exists S : pop -> R, forall b F,
        \sum_x s0_gam gi x * E (s0_prop gi b x) F
        = \sum_xt S xt * W (s0_lw gi xt) b * F xt,
      forall b x, proper (s0_prop gi b x)
    & forall b x, almost (fun xt : pop => xt b = x) (s0_prop gi b x)].

Fixpoint steps_ok (st : seq nstep) : Prop :=
  if st is s :: st' then [/\ rs_ok s, bw_ok W s, prop_ok s, forall x y, 0 <= s_gam s x y & steps_ok st'] else True.

Fixpoint fsum (sts : seq nstep) (z : Z) (F : seq Z -> R) : R :=
  match sts with
  | [::] => F [::]
  | s :: sts' => \sum_b \sum_x s_gam s z.1 x * fsum sts' (x, b) (fun q => F ((x, b) :: q))
  end.

Lemma psum_catrev sts st F :
  psum (catrev sts st) F = psum st (fun p => fsum sts (head z0 p) (fun q => F (catrev q p))).
Proof. by elim: sts st F => [|s sts IH] st F //=; rewrite IH. Qed.

Lemma psum_rev sts F :
  psum (rev sts) F = \sum_b \sum_x s0_gam gi x * fsum sts (x, b) (fun q => F (rev ((x, b) :: q))).
Proof. by rewrite /rev psum_catrev. Qed.

Hypothesis iok : init_ok.

Lemma eq_psum st F G : F =1 G -> psum st F = psum st G.
Proof.
elim: st F G => [|s st IH] F G FG /=.
  by apply: eq_bigr => b _; apply: eq_bigr => x _; rewrite FG.
by apply: IH => p; apply: eq_bigr => b _; apply: eq_bigr => x _; rewrite FG.
Qed.

Lemma eq_nsum st F G : F =1 G -> nsum st F = nsum st G.
Proof.
elim: st F G => [|s st IH] F G FG /=.
  by apply: eq_bigr => b _; apply: eq_bigr => x _; congr (_ * _); apply: eq_E => x0.
apply: IH => h; apply: eq_bigr => i _; congr (_ * _); apply: eq_E => A.
by apply: eq_bigr => b _; apply: eq_bigr => x _; congr (_ * _); apply: eq_E => x0.
Qed.

Lemma nfwd_proper st p : steps_ok st -> proper (nfwd st p).
Proof.
elim: st p => [|s st IH] p /=.
  by move=> _; apply: proper_bind => //; case: iok.
move=> [rs _ pr _ sok]; apply: proper_bind; first exact: IH.
move=> [h|] //; case: ifP => // okh.
apply: proper_bind => [|A]; first by have [_] := rs _ (W_ok okh); exact.
by apply: proper_bind => [|xt] //; case: (pr (take_ax (nlast h).2 A)).
Qed.

Lemma weighted_swap (S : pop -> R) (lw : pop -> L) (T : 'I_n -> (pop -> R) -> R)
    (F : 'I_n -> pop -> R) :
  (forall b G, T b G = \sum_xt S xt * W (lw xt) b * G xt) ->
  \sum_b T b (F b) = \sum_b T b (fun xt => \sum_k W (lw xt) k * F k xt).
Proof.
move=> H; under eq_bigr do rewrite H.
under [RHS]eq_bigr do rewrite H.
rewrite exchange_big [RHS]exchange_big /=; apply: eq_bigr => xt _.
rewrite -[RHS]mulr_suml -[in RHS]mulr_sumr.
case: (boolP (ok (lw xt))) => o.
  rewrite (proj2 (W_ok o)) mulr1 mulr_sumr; apply: eq_bigr => b _; by rewrite mulrA.
rewrite !big1 ?mulr0 ?mul0r // => b _; by rewrite W_bad ?mulr0 ?mul0r.
Qed.

Theorem change_of_measure st (F : option hist -> seq Z -> R) : steps_ok st ->
  psum st (fun p => E (nfwd st p) (fun h => F h p))
  = nsum st (fun h => \sum_k W (nlast h).1 k * F (Some h) (ntrace h.1 h.2 k)).
Proof.
elim: st F => [|s st IH] F /=.
  move=> _; have [_ [S HS] _ keep] := iok.
  rewrite -(@weighted_swap S (s0_lw gi)
     (fun b G => \sum_x s0_gam gi x * E (s0_prop gi b x) G)
     (fun b xt => F (Some (s0_lw gi xt, xt, [::])) [:: (xt b, b)])) //=.
  apply: eq_bigr => b _; apply: eq_bigr => x _; congr (_ * _).
  rewrite E_bind /=; apply: eq_E_almost; apply: almost_imp (keep b x) => xt /= <-.
  by [].
move=> [rs _ pr _ sok].
pose F' (o : option hist) (p : seq Z) := \sum_b \sum_x
   s_gam s (head z0 p).1 x *
   (if o is Some h then
      if ok (nlast h).1 then
        E (s_rs s (W (nlast h).1) (head z0 p).2 b) (fun A =>
        E (s_prop s (take_ax (nlast h).2 A) b x) (fun xt =>
          F (Some (h.1, (s_lw s (take_ax (nlast h).2 A) xt, A, xt) :: h.2)) ((x, b) :: p)))
      else F None ((x, b) :: p)
    else F None ((x, b) :: p)).
transitivity (psum st (fun p => E (nfwd st p) (fun o => F' o p))).
  apply: eq_psum => p; rewrite /F' E_sum; apply: eq_bigr => b _; rewrite E_sum; apply: eq_bigr => x _.
  rewrite E_scale; congr (_ * _); rewrite E_bind; apply: eq_E => -[h|] //.
  case: ifP => // _; rewrite E_bind; apply: eq_E => A; by rewrite E_bind.
rewrite IH //; apply: eq_nsum => h; rewrite /F'.
case: (boolP (ok (nlast h).1)) => okh; last first.
  by rewrite !big1 // => k _; rewrite W_bad ?mul0r.
set w := W _; have pW : prob_vec w by apply: W_ok.
have gh k : head z0 (ntrace h.1 h.2 k) = ((nlast h).2 k, k).
  by case: h {w pW okh} => [[lw x] [|[[lw' A] x'] outs]].
transitivity (\sum_b \sum_k w k * E (s_rs s w k b) (fun A =>
   \sum_x s_gam s ((nlast h).2 k) x *
   E (s_prop s (take_ax (nlast h).2 A) b x) (fun xt =>
     F (Some (h.1, (s_lw s (take_ax (nlast h).2 A) xt, A, xt) :: h.2)) ((x, b) :: ntrace h.1 h.2 k)))).
  rewrite exchange_big /=; apply: eq_bigr => k _; rewrite mulr_sumr; apply: eq_bigr => b _.
  congr (_ * _); rewrite E_sum; apply: eq_bigr => x _.
  by rewrite gh /= E_scale.
rewrite (eq_bigr (fun b : 'I_n => \sum_i w i * E (s_rs s w i ord0) (fun A =>
   \sum_x s_gam s (take_ax (nlast h).2 A b) x *
   E (s_prop s (take_ax (nlast h).2 A) b x) (fun xt =>
     F (Some (h.1, (s_lw s (take_ax (nlast h).2 A) xt, A, xt) :: h.2))
       ((x, b) :: ntrace h.1 h.2 (A b)))))); last first.
  move=> b _; rewrite (rs_swap b (fun k A => _)) //.
  by apply: eq_bigr => i _; congr (_ * _); apply: eq_E => A; rewrite /take_ax ffunE.
rewrite exchange_big /=; apply: eq_bigr => i _; rewrite -mulr_sumr; congr (_ * _).
rewrite -E_sum; apply: eq_E => A.
set xm := take_ax _ _.
have [[S HS] _ keep] := pr xm.
rewrite -(@weighted_swap S (s_lw s xm)
     (fun b G => \sum_x s_gam s (xm b) x * E (s_prop s xm b x) G)
     (fun b xt => F (Some (h.1, (s_lw s xm xt, A, xt) :: h.2)) ((xt b, b) :: ntrace h.1 h.2 (A b)))) //=.
apply: eq_bigr => b _; apply: eq_bigr => x _; congr (_ * _).
apply: eq_E_almost; apply: almost_imp (keep b x) => xt /= <-.
by [].
Qed.

Lemma nsum_trace st f : steps_ok st ->
  nsum st (fun h => \sum_k W (nlast h).1 k * f (ntrace h.1 h.2 k)) = psum st f.
Proof.
move=> sok; rewrite -(change_of_measure (fun _ => f)) //.
by apply: eq_psum => p; rewrite E_const //; exact: nfwd_proper.
Qed.

Variable bkey : nat -> key.
Local Notation nbs := (nbs bkey).

Lemma nbs_proper st c h0 outs k : steps_ok st -> proper (nbs st c h0 outs k).
Proof.
elim: st c outs k => [|s st IH] c [|[[lw A] x] outs] k //= [rs bw pr _ sok].
have := bw (nlast (h0, outs)).2 (nlast (h0, outs)).1 (x k).
case: (s_bw _ _ _ _) => [v|] //= [[v0 v1] _].
by split=> // b; apply: proper_bind => //; exact: IH.
Qed.

(** Outcomes without mass. *)
Lemma sum_null (I : finType) (a b : I -> R) : (forall i, 0 <= a i) -> \sum_i a i = 0 ->
  (forall i, a i = 0 -> b i = 0) -> \sum_i b i = 0.
Proof.
move=> a0 /eqP; rewrite psumr_eq0 => [/allP H ab|i _]; last exact: a0.
rewrite big1 // => i _; apply: ab; apply/eqP; exact: H (mem_index_enum i).
Qed.

Lemma mul_null (c a b : R) : (a = 0 -> b = 0) -> c * a = 0 -> c * b = 0.
Proof. by move=> ab /eqP; rewrite mulf_eq0 => /orP [/eqP ->|/eqP /ab ->]; rewrite ?mul0r ?mulr0. Qed.

Lemma E_null A (m : prog A) f g : proper m -> (forall a, 0 <= f a) -> E m f = 0 ->
  (forall a, f a = 0 -> g a = 0) -> E m g = 0.
Proof.
move=> + f0; elim: m => [a _ + fg|k B p h IH] /=; first exact: fg.
move=> [p0 p1 pr] e fg; apply: (sum_null _ e) => [b|b].
  by apply: mulr_ge0 => //; exact: E_ge0.
by apply: mul_null => e'; exact: IH.
Qed.

Lemma W_ge0 l i : 0 <= W l i.
Proof. by case: (boolP (ok l)) => o; [case: (W_ok o) | rewrite W_bad]. Qed.

Lemma nsum_null st G H : steps_ok st -> (forall h, 0 <= G h) -> nsum st G = 0 ->
  (forall h, G h = 0 -> H h = 0) -> nsum st H = 0.
Proof.
elim: st G H => [|s st IH] G H /=.
  move=> _ G0 e GH; have [g0 _ pp _] := iok; apply: (sum_null _ e) => [b|b eb].
    by apply: sumr_ge0 => x _; apply: mulr_ge0 => //; exact: E_ge0.
  apply: (sum_null _ eb) => [x|x]; first by apply: mulr_ge0 => //; exact: E_ge0.
  by apply: mul_null => ex; apply: (E_null _ _ ex) => // a; exact: GH.
move=> [rs bw pr g0 sok] G0 e GH.
have gen h (F : hist -> R) : (forall h, 0 <= F h) -> forall A, 0 <= \sum_b \sum_x s_gam s (take_ax (nlast h).2 A b) x *
            E (s_prop s (take_ax (nlast h).2 A) b x) (fun xt => F (h.1, (s_lw s (take_ax (nlast h).2 A) xt, A, xt) :: h.2)).
  move=> F0 A; apply: sumr_ge0 => b _; apply: sumr_ge0 => x _; apply: mulr_ge0 => //.
  by apply: E_ge0 => //; case: (pr (take_ax (nlast h).2 A)).
apply: (IH _ _ sok _ e) => [h|h eh].
  apply: sumr_ge0 => i _; case: (boolP (ok (nlast h).1)) => o; last by rewrite W_bad ?mul0r.
  apply: mulr_ge0; first exact: W_ge0.
  by apply: E_ge0 => [|A]; [have [_] := rs _ (W_ok o); exact | exact: gen].
case: (boolP (ok (nlast h).1)) => o; last by rewrite big1 // => i _; rewrite W_bad ?mul0r.
have pw := W_ok o; apply: (sum_null _ eh) => [i|i].
  by apply: mulr_ge0; [exact: W_ge0 | apply: E_ge0 => [|A]; [have [_] := rs _ pw; exact | exact: gen]].
apply: mul_null => ei; apply: (E_null _ _ ei) => [||A eA].
- by have [_] := rs _ pw; exact.
- by move=> A; exact: gen.
have [_ pp _] := pr (take_ax (nlast h).2 A).
apply: (sum_null _ eA) => [b|b eb].
  by apply: sumr_ge0 => x _; apply: mulr_ge0 => //; exact: E_ge0.
apply: (sum_null _ eb) => [x|x]; first by apply: mulr_ge0 => //; exact: E_ge0.
by apply: mul_null => ex; apply: (E_null _ _ ex) => // a; exact: GH.
Qed.

Lemma nsum_add st G H : nsum st (fun h => G h + H h) = nsum st G + nsum st H.
Proof.
elim: st G H => [|s st IH] G H /=.
  rewrite -big_split; apply: eq_bigr => b _; rewrite -big_split; apply: eq_bigr => x _ /=.
  by rewrite E_add mulrDr.
rewrite -IH; apply: eq_nsum => h /=; rewrite -big_split; apply: eq_bigr => i _ /=.
rewrite -mulrDr; congr (_ * _); rewrite -E_add; apply: eq_E => A.
rewrite -big_split; apply: eq_bigr => b _; rewrite -big_split; apply: eq_bigr => x _ /=.
by rewrite E_add mulrDr.
Qed.

Lemma sum_mul0 (I : finType) (a b : I -> R) : (forall i, 0 <= a i) -> \sum_i a i = 0 -> \sum_i a i * b i = 0.
Proof. by move=> a0 e; apply: (sum_null a0 e) => i ->; rewrite mul0r. Qed.

Lemma nsum_bs st c f : steps_ok st ->
  nsum st (fun h => \sum_k W (nlast h).1 k * E (nbs st c h.1 h.2 k) f) = psum st (fun p => f (Some p)).
Proof.
elim: st c f => [|s st IH] c f /=.
  by move=> sok; exact: (nsum_trace (st := [::]) (fun p => f (Some p)) sok).
move=> [rs bw pr g0 sok].
pose f' (o : option (seq Z)) : R := if o is Some p then
   \sum_b \sum_x s_gam s (head z0 p).1 x * f (Some ((x, b) :: p)) else 0.
pose e (h : hist) (j : 'I_n) : R := W (nlast h).1 j * E (nbs st c.+1 h.1 h.2 j) (fun o => (~~ isSome o)%:R).
pose r (h : hist) (j : 'I_n) : R := (\sum_(b : 'I_n) \sum_x s_gam s ((nlast h).2 j) x) * f None.
have null : nsum st (fun h => \sum_j e h j * r h j) = 0.
  have e0 h j : 0 <= e h j.
    by apply: mulr_ge0; [exact: W_ge0 | apply: E_ge0 => [|a]; [exact: nbs_proper | exact: ler0n]].
  apply: (@nsum_null st (fun h => \sum_j e h j) (fun h => \sum_j e h j * r h j)) => //.
  - by move=> h; exact: sumr_ge0.
  - rewrite (IH c.+1 (fun o => (~~ isSome o)%:R)) //; elim: (st) => [|s1 st1 IH1] /=.
      by rewrite big1 // => b _; rewrite big1 // => x _; rewrite mulr0.
    by rewrite -[RHS]IH1; apply: eq_psum => p; rewrite big1 // => b _; rewrite big1 // => x _; rewrite mulr0.
  - by move=> h eh; exact: sum_mul0.
transitivity (nsum st (fun h => \sum_k W (nlast h).1 k * E (nbs st c.+1 h.1 h.2 k) f')
   + nsum st (fun h => \sum_j e h j * r h j)); last by rewrite null addr0 IH.
rewrite -nsum_add; apply: eq_nsum => h; rewrite -big_split /e /r /=.
case: (boolP (ok (nlast h).1)) => okh; last first.
  by rewrite !big1 // => k _; rewrite W_bad // !mul0r ?addr0.
set w := W _; have pW : prob_vec w by apply: W_ok.
pose Fb b x := if s_bw s (nlast h).2 (nlast h).1 x is Some v then
    \sum_j cat_law v j * E (nbs st c.+1 h.1 h.2 j) (fun p => f (omap (cons (x, b)) p)) else f None.
transitivity (\sum_i w i * E (s_rs s w i ord0) (fun A =>
   \sum_b \sum_x s_gam s ((nlast h).2 (A b)) x * Fb b x)).
  apply: eq_bigr => i _; congr (_ * _); apply: eq_E => A.
  set xm := take_ax _ _; have [[S HS] pp keep] := pr xm.
  rewrite -(@weighted_swap S (s_lw s xm)
     (fun b G => \sum_x s_gam s (xm b) x * E (s_prop s xm b x) G)
     (fun b xt => E (nbs (s :: st) c h.1 ((s_lw s xm xt, A, xt) :: h.2) b) f)) //=.
  apply: eq_bigr => b _; apply: eq_bigr => x _; rewrite /xm /take_ax ffunE; congr (_ * _).
  rewrite -[RHS](E_const (m := s_prop s xm b x)) //.
  apply: eq_E_almost; apply: almost_imp (keep b x) => xt /= xtb.
  rewrite -surjective_pairing /Fb -xtb; case: (s_bw _ _ _ _) => [v|] //=.
  by apply: eq_bigr => j _; rewrite E_bind.
transitivity (\sum_b \sum_k w k * (\sum_x s_gam s ((nlast h).2 k) x * Fb b x)).
  under [LHS]eq_bigr do rewrite E_sum mulr_sumr.
  rewrite exchange_big /=; apply: eq_bigr => b _.
  by rewrite (rs_marg b (fun k => \sum_x s_gam s ((nlast h).2 k) x * Fb b x)).
transitivity (\sum_b \sum_x \sum_j w j * s_gam s ((nlast h).2 j) x *
    E (nbs st c.+1 h.1 h.2 j) (fun p => f (omap (cons (x, b)) p))).
  apply: eq_bigr => b _; under eq_bigr do rewrite mulr_sumr.
  rewrite exchange_big /=; apply: eq_bigr => x _.
  under eq_bigr do rewrite mulrA.
  rewrite -mulr_suml /Fb.
  have := bw (nlast h).2 (nlast h).1 x; rewrite -/w; case: (s_bw _ _ _ _) => [v [_ H]|H]; last first.
    by rewrite !big1 ?mul0r // => k _; rewrite H // mul0r.
  by rewrite mulr_sumr; apply: eq_bigr => j _; rewrite mulrA H.
rewrite [LHS](eq_bigr (fun b => \sum_j w j * \sum_x s_gam s ((nlast h).2 j) x *
    E (nbs st c.+1 h.1 h.2 j) (fun p => f (omap (cons (x, b)) p)))); last first.
  move=> b _; rewrite exchange_big /=; apply: eq_bigr => j _; rewrite mulr_sumr.
  by apply: eq_bigr => x _; rewrite mulrA.
rewrite exchange_big /=; apply: eq_bigr => j _; rewrite -mulr_sumr -mulrA -mulrDr; congr (_ * _).
rewrite -E_scaler -E_add.
rewrite [LHS](_ : _ = E (nbs st c.+1 h.1 h.2 j) (fun p => \sum_b \sum_x s_gam s ((nlast h).2 j) x *
    f (omap (cons (x, b)) p))); last first.
  by rewrite E_sum; apply: eq_bigr => b _; rewrite E_sum; apply: eq_bigr => x _; rewrite E_scale.
apply: eq_E_always.
have := nbs_head z0 bkey st c.+1 h j.
apply: always_imp => -[p|] /=; first by move=> ->; rewrite mul0r addr0.
move=> _; rewrite add0r mul1r mulr_suml; apply: eq_bigr => b _; by rewrite mulr_suml.
Qed.

(** ** Kernels: forward pass, move of the final index, backward pass. *)
Section Kernels.
Variables (mv : ('I_n -> R) -> 'I_n -> prog 'I_n) (st : seq nstep).
Hypothesis sok : steps_ok st.
Hypothesis inv : forall w, prob_vec w -> invariant_move w (mv w).

Theorem nkern_invariant backward f :
  psum st (fun p => E (nkern ok W gi z0 bkey mv st backward p) f) = psum st (fun p => f (Some p)).
Proof.
transitivity (nsum st (fun h => \sum_k W (nlast h).1 k * E (nback bkey st backward h k) f)); last first.
  by case: backward; [apply: nsum_bs | apply: (@nsum_trace st (fun p => f (Some p)))].
pose F (o : option hist) (p : seq Z) : R := if o is Some h then
   if ok (nlast h).1 then E (mv (W (nlast h).1) (head z0 p).2) (fun k' => E (nback bkey st backward h k') f)
   else f None else f None.
transitivity (psum st (fun p => E (nfwd st p) (fun o => F o p))).
  apply: eq_psum => p; rewrite /nkern E_bind; apply: eq_E => -[h|] //=.
  by case: ifP => //= _; rewrite E_bind.
rewrite change_of_measure //; apply: eq_nsum => h; rewrite /F.
case: (boolP (ok (nlast h).1)) => okh; last by rewrite !big1 // => k _; rewrite W_bad ?mul0r.
rewrite -(inv (W_ok okh) (fun k => E (nback bkey st backward h k) f)); apply: eq_bigr => k _.
have -> : (head z0 (ntrace h.1 h.2 k)).2 = k by case: h {okh} => h0 [|[[lw A] x] outs].
by [].
Qed.

Hypothesis mv_proper : forall w k, prob_vec w -> proper (mv w k).

Lemma nkern_proper backward p : proper (nkern ok W gi z0 bkey mv st backward p).
Proof.
apply: proper_bind; first exact: nfwd_proper.
move=> [h|] //; case: ifP => // okh; apply: proper_bind; first exact: (mv_proper _ (W_ok okh)).
by move=> k; case: backward => //; exact: nbs_proper.
Qed.

End Kernels.

End Finite.
