(** * ShiftTheory: conditional SMC with abstract steps (SmcTheory) when the indices are rotated, and paths it
    may return. *)
From Coq Require Import Reals FunctionalExtensionality.
From mathcomp Require Import all_ssreflect all_algebra.
From Verif Require Import RInst Prog ProgTheory Resampling Spec ResamplingProofs Csmc SmcTheory ErgodicSpec ErgodicTheory.

Set Implicit Arguments.
Unset Strict Implicit.
Unset Printing Implicit Defensive.
Import GRing.Theory Num.Theory Order.TTheory.
Local Open Scope ring_scope.

Section Shift.
Variables (X : Type) (n' : nat).
Local Notation n := n'.+1.
Local Notation pop := (pop X n').
Local Notation anc := (anc n').
Local Notation lwts := (lwts n').
Local Notation Z := (X * 'I_n)%type.
Local Notation gstep := (gstep X n').
Local Notation ginit := (ginit X n').
Local Notation hist := (hist X n').
Implicit Types (a : 'I_n) (q : seq 'I_n).

Lemma sum_moved (a : 'I_n) (F : 'I_n -> R) : \sum_i F i = \sum_i F (i + a).
Proof. by rewrite (reindex (fun i => i + a)) //; exists (fun i => i - a) => i _; rewrite (addrK, subrK). Qed.

Lemma moved_prob a w : prob_vec w -> prob_vec (moved_w a w).
Proof.
case=> w0 w1; split=> [i|]; first exact: w0.
by rewrite (sum_moved a) -w1; apply: eq_bigr => i _; rewrite /moved_w addrK.
Qed.

Lemma normalize_moved a (l : lwts) : normalize (moved_w a l) = moved_w a (normalize l).
Proof.
apply: functional_extensionality => i; rewrite /moved_w !normalizeE (sum_moved a); congr (_ / _).
by apply: eq_bigr => j _; rewrite addrK.
Qed.

Lemma take_moved a a' (x : pop) (A : anc) : take_ax (moved a x) (moved_anc a a' A) = moved a' (take_ax x A).
Proof. by apply/ffunP => i; rewrite !ffunE addrK. Qed.

Lemma E_choice_moved k k' a (w : 'I_n -> R) f : prob_vec w ->
  E (choice k (moved_w a w)) f = E (choice k' w) (fun i => f (i + a)).
Proof.
move=> pw; rewrite !E_choice //; last exact: moved_prob.
by rewrite (sum_moved a); apply: eq_bigr => i _; rewrite /moved_w addrK.
Qed.

Record step_moved (s s' : gstep) : Prop := StepMoved {
  rsM : forall w a a' i j f, prob_vec w ->
    E (g_rs s' (moved_w a w) (i + a) (j + a')) f = E (g_rs s w i j) (fun A => f (moved_anc a a' A));
  propM : forall xm a b x f, E (g_prop s' (moved a xm) (b + a) x) f = E (g_prop s xm b x) (fun xt => f (moved a xt));
  lwM : forall xm xt a, g_lw s' (moved a xm) (moved a xt) = moved_w a (g_lw s xm xt);
  gamM : forall x y, g_gam s' x y = g_gam s x y }.

Record init_moved (g g' : ginit) : Prop := InitMoved {
  prop0M : forall a b x f, E (g0_prop g' (b + a) x) f = E (g0_prop g b x) (fun xt => f (moved a xt));
  lw0M : forall xt a, g0_lw g' (moved a xt) = moved_w a (g0_lw g xt) }.

Fixpoint all_moved (st st' : seq gstep) : Prop :=
  match st, st' with
  | [::], [::] => True
  | s :: st, s' :: st' => step_moved s s' /\ all_moved st st'
  | _, _ => False
  end.

Definition gen_moved a (g : lwts * pop) : lwts * pop := (moved_w a g.1, moved a g.2).

Fixpoint outs_moved q (outs : seq (lwts * anc * pop)) : seq (lwts * anc * pop) :=
  if outs is (lw, A, x) :: outs' then
    (moved_w (head 0 q) lw, moved_anc (head 0 (behead q)) (head 0 q) A, moved (head 0 q) x) :: outs_moved (behead q) outs'
  else [::].

Definition hist_moved q (h : hist) : hist := (gen_moved (nth 0 q (size h.2)) h.1, outs_moved q h.2).

Fixpoint path_moved q (p : seq Z) : seq Z :=
  if p is z :: p' then (z.1, z.2 + head 0 q) :: path_moved (behead q) p' else [::].

Lemma path_moved_states q p : unzip1 (path_moved q p) = unzip1 p.
Proof. by elim: p q => [|z p IH] q //=; rewrite IH. Qed.

Lemma hlast_moved q h : hlast (hist_moved q h) = gen_moved (head 0 q) (hlast h).
Proof. by case: h => h0 [|[[lw A] x] outs] //=; rewrite /hlast /hist_moved nth0. Qed.

Lemma gfwd_moved (g g' : ginit) z0 z0' st st' p q F : init_moved g g' -> all_moved st st' -> size p = (size st).+1 ->
  E (gfwd g' z0' st' (path_moved q p)) F = E (gfwd g z0 st p) (fun h => F (hist_moved q h)).
Proof.
move=> ig; elim: st st' p q F => [|s st IH] [|s' st'] //= [|z p] q F.
  by [].
  move=> _ [sp]; rewrite /= !E_bind (prop0M ig); apply: eq_E => x /=.
  by rewrite /hist_moved /gen_moved /= nth0 (lw0M ig).
  by [].
move=> [ms mst] [sp]; rewrite !E_bind /= (IH _ p (behead q)) //; apply: eq_E => h.
rewrite !E_bind hlast_moved /gen_moved /= normalize_moved.
have -> : (head z0' (path_moved (behead q) p)).2 = (head z0 p).2 + head 0 (behead q) by case: p sp.
rewrite (rsM ms); last exact: normalize_prob.
apply: eq_E => A; rewrite take_moved !E_bind (propM ms); apply: eq_E => xt /=.
by rewrite (lwM ms) /hist_moved /gen_moved /= nth_behead.
Qed.

Lemma gtrace_moved q h0 outs k :
  gtrace (gen_moved (nth 0 q (size outs)) h0) (outs_moved q outs) (k + head 0 q) = path_moved q (gtrace h0 outs k).
Proof.
elim: outs q k => [|[[lw A] x] outs IH] q k /=; first by rewrite nth0 ffunE addrK.
by rewrite !ffunE addrK -IH nth_behead.
Qed.

Lemma E_gbs_cons bk (s : gstep) st c h0 lw (A : anc) (x : pop) outs k f :
  E (gbs bk (s :: st) c h0 ((lw, A, x) :: outs) k) f
  = E (choice (bk c) (normalize (fun i => g_gam s ((hlast (h0, outs)).2 i) (x k) + (hlast (h0, outs)).1 i)))
      (fun j => E (gbs bk st c.+1 h0 outs j) (fun p => f ((x k, k) :: p))).
Proof.
rewrite -[LHS]/(E (do j <- _; do p <- _; Ret _) f) E_bind; apply: eq_E => j.
by rewrite E_bind.
Qed.

Lemma gbs_moved bk bk' st st' c h0 outs q k f : all_moved st st' ->
  E (gbs bk' st' c (gen_moved (nth 0 q (size outs)) h0) (outs_moved q outs) (k + head 0 q)) f
  = E (gbs bk st c h0 outs k) (fun p => f (path_moved q p)).
Proof.
have last0 q' k' o : ((hlast (gen_moved (nth 0 q' (size o)) h0, outs_moved q' o)).2 (k' + head 0 q'), k' + head 0 q')
     = ((hlast (h0, o)).2 k', k' + head 0 q') :> Z.
  have := hlast_moved q' (h0, o); rewrite /hist_moved /= => ->.
  by rewrite /gen_moved /= ffunE addrK.
elim: st st' c outs q k f => [|s st IH] [|s' st'] // c outs q k f; first by move=> _ /=; rewrite last0.
case: outs => [|[[lw A] x] outs] [ms mst]; first by rewrite /= nth0 ffunE addrK.
rewrite -[outs_moved _ _]/((_, _, _) :: outs_moved (behead q) outs) !E_gbs_cons ffunE addrK.
have -> : nth 0 q (size ((lw, A, x) :: outs)) = nth 0 (behead q) (size outs) by rewrite nth_behead.
have := hlast_moved (behead q) (h0, outs); rewrite /hist_moved [size _]/= => ->.
set w := (fun i => g_gam s ((hlast (h0, outs)).2 i) (x k) + (hlast (h0, outs)).1 i).
have -> : normalize (fun i => g_gam s' ((gen_moved (head 0 (behead q)) (hlast (h0, outs))).2 i) (x k)
            + (gen_moved (head 0 (behead q)) (hlast (h0, outs))).1 i) = moved_w (head 0 (behead q)) (normalize w).
  rewrite -normalize_moved; congr normalize; apply: functional_extensionality => i.
  by rewrite /gen_moved /= ffunE (gamM ms) /moved_w /w.
rewrite (E_choice_moved _ (bk c)); last exact: normalize_prob.
by apply: eq_E => j; rewrite IH.
Qed.

Theorem gkern_moved (g g' : ginit) z0 z0' bk bk' mv mv' st st' backward p q f :
  init_moved g g' -> all_moved st st' -> size p = (size st).+1 ->
  (forall w a k F, prob_vec w -> E (mv' (moved_w a w) (k + a)) F = E (mv w k) (fun i => F (i + a))) ->
  E (gkern g' z0' bk' mv' st' backward (path_moved q p)) f
  = E (gkern g z0 bk mv st backward p) (fun p => f (path_moved q p)).
Proof.
move=> ig ms sp mm; rewrite /gkern !E_bind (@gfwd_moved g g' z0 z0' st st' p q) //; apply: eq_E => h.
rewrite hlast_moved /gen_moved /= normalize_moved !E_bind.
have -> : (head z0' (path_moved q p)).2 = (head z0 p).2 + head 0 q by case: p sp.
rewrite mm; last exact: normalize_prob.
apply: eq_E => k; rewrite /gback; case: backward; first exact: (@gbs_moved bk bk').
by rewrite /= gtrace_moved.
Qed.

(** ** Paths that may be returned *)
Definition may_spread (s : gstep) : Prop := forall w i j m, prob_vec w -> (forall l, 0 < w l) -> m != i ->
  exists2 l, l != j & possible (fun A : anc => A l = m) (g_rs s w i j).
Definition may_propose (s : gstep) (y : X) : Prop := forall xm b x,
  possible (fun xt : pop => forall l, l != b -> xt l = y) (g_prop s xm b x).
Definition may_start (g : ginit) (y : X) : Prop := forall b x,
  possible (fun xt : pop => forall l, l != b -> xt l = y) (g0_prop g b x).

Fixpoint may_reach (g : ginit) (st : seq gstep) (ys : seq X) : Prop :=
  match st, ys with
  | [::], [:: y] => may_start g y
  | s :: st', y :: ys' => [/\ may_spread s, may_propose s y & may_reach g st' ys']
  | _, _ => False
  end.

Lemma gfwd_reach g z0 st p ys : (0 < n')%N -> may_reach g st ys ->
  possible (fun h => exists2 k, k != (head z0 p).2 & unzip1 (gtrace h.1 h.2 k) = ys) (gfwd g z0 st p).
Proof.
move=> n0; elim: st p ys => [|s st IH] p [|y ys] //=.
  case: ys => // ms; apply: possible_bind; apply: possible_imp (ms (head z0 p).2 (head z0 p).1) => xt H /=.
  have [k kb] : exists k : 'I_n, k != (head z0 p).2.
    by exists ((head z0 p).2 + inord 1); rewrite -subr_eq0 addrC addKr -val_eqE /= inordK.
  by exists k; rewrite //= H.
case=> sp pr rr; apply: possible_bind; apply: possible_imp (IH (behead p) ys rr) => h [m mb tr].
have [l lb po] := sp (normalize (hlast h).1) (head z0 (behead p)).2 (head z0 p).2 m
  (normalize_prob _) (normalize_gt0 _) mb.
apply: possible_bind; apply: possible_imp po => A Al; apply: possible_bind.
apply: possible_imp (pr _ (head z0 p).2 (head z0 p).1) => xt H /=.
by exists l; rewrite //= H // Al tr.
Qed.

Lemma gbs_reach bk (st : seq gstep) c h0 outs k : size outs = size st ->
  possible (fun p => unzip1 p = unzip1 (gtrace h0 outs k)) (gbs bk st c h0 outs k).
Proof.
elim: st c outs k => [|s st IH] c [|[[lw A] x] outs] k //= [sz].
have pn := normalize_prob (fun i => g_gam s ((hlast (h0, outs)).2 i) (x k) + (hlast (h0, outs)).1 i).
exists (A k); split; first by rewrite cat_law_prob //; exact: normalize_gt0.
by apply: possible_bind; apply: possible_imp (IH c.+1 outs (A k) sz) => p /= ->.
Qed.

Lemma possible_always A (P Q : A -> Prop) (m : prog A) : always Q m -> possible P m -> possible (fun r => P r /\ Q r) m.
Proof. by elim: m => [r|k B p f IH] //= al [b [pb H]]; exists b; split=> //; exact: IH. Qed.

Theorem gkern_reach g z0 bk mv st backward p ys : (0 < n')%N -> may_reach g st ys ->
  (forall w k l, prob_vec w -> (forall l, 0 < w l) -> l != k -> possible (fun i => i = l) (mv w k)) ->
  possible (fun p => unzip1 p = ys) (gkern g z0 bk mv st backward p).
Proof.
move=> n0 rr mr; apply: possible_bind.
apply: possible_imp (possible_always (gfwd_size g z0 st p) (gfwd_reach z0 p n0 rr)) => h [[k kb tr] sz].
apply: possible_bind; apply: possible_imp (mr _ _ k (normalize_prob _) (normalize_gt0 _) kb) => i ->.
rewrite /gback; case: backward => //.
by apply: possible_imp (gbs_reach bk 0 h.1 k sz) => p' ->.
Qed.

End Shift.
