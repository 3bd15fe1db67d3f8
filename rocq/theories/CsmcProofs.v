(** * CsmcProofs: facts about every execution of the kernel of csmc.py, and its use of keys. *)
From Coq Require Import Reals FunctionalExtensionality.
From mathcomp Require Import all_ssreflect all_algebra.
From Verif Require Import RInst Prog ProgTheory Resampling Spec ResamplingProofs KillingProofs.
From Verif Require Import Csmc SmcTheory BackwardProofs.

Set Implicit Arguments.
Unset Strict Implicit.
Unset Printing Implicit Defensive.
Import GRing.Theory Num.Theory Order.TTheory.
Local Open Scope ring_scope.

(** ** Scans *)
Fixpoint All2 (I O : Type) (Rel : I -> O -> Prop) (ins : seq I) (os : seq O) : Prop :=
  match ins, os with
  | [::], [::] => True
  | i :: ins', o :: os' => Rel i o /\ All2 Rel ins' os'
  | _, _ => False
  end.

Lemma All2_size (I O : Type) (Rel : I -> O -> Prop) ins os : All2 Rel ins os -> size os = size ins.
Proof. by elim: ins os => [|i ins IH] [|o os] //= [_ /IH ->]. Qed.

Lemma scan_always (C I O : Type) (body : C -> I -> prog (C * O)) (Rel : I -> O -> Prop) ins c :
  (forall c i, always (fun r => Rel i r.2) (body c i)) ->
  always (fun co => All2 Rel ins co.2) (scan body c ins).
Proof.
move=> H; elim: ins c => [|i ins IH] c //=.
apply/always_bind; apply: always_imp (H c i) => -[c' o] /= ro.
apply/always_bind; apply: always_imp (IH c') => -[c'' os] /= ros.
by [].
Qed.

Lemma scan_size (C I O : Type) (body : C -> I -> prog (C * O)) ins c :
  always (fun co => size co.2 = size ins) (scan body c ins).
Proof.
have H := @scan_always C I O body (fun _ _ => True) ins c.
apply: always_imp (H _) => [co /All2_size //|c' i].
by apply: always_true.
Qed.

Section Csmc.
Variables (X : Type) (n' : nat) (P Q : Type).
Local Notation n := n'.+1.
Local Notation pop := (pop X n').
Local Notation anc := (anc n').
Local Notation lwts := (lwts n').
Variable md : model X n' P Q.
Variable rs : resampler n.
Variable mv : mover n.

(** *** The reference is carried (C12) *)

Definition keeps (rs : resampler n) : Prop :=
  forall key w i j, always (fun A : anc => A j = i) (rs key w i j true).

Definition keeps_ref (x0 : X) (xs : seq X) (b0 : 'I_n) (bs : seq 'I_n) (o : fwd_out X n') : Prop :=
  [/\ o.1.2 b0 = x0, size o.2 = size xs
    & forall t, (t < size xs)%N -> forall dflt,
        let s := nth dflt o.2 t in
        s.2 (nth b0 bs t) = nth x0 xs t /\ s.1.2 (nth b0 bs t) = nth b0 (b0 :: bs) t].

Lemma All2_inputs (Rel : inp X n' P Q -> lwts * anc * pop -> Prop) ps qs b0 bs key c xs os x0 :
  size ps = size qs -> size bs = size qs -> size xs = size qs ->
  All2 Rel (inputs ps qs b0 bs key c xs) os ->
  size os = size xs /\ forall t, (t < size xs)%N -> forall dflt,
    exists i, [/\ Rel i (nth dflt os t), i_b i = nth b0 bs t, i_x i = nth x0 xs t
                & i_bm1 i = nth b0 (b0 :: bs) t].
Proof.
elim: qs ps b0 bs c xs os => [|q qs IH] [|p ps] b0 [|b bs] c [|x xs] [|o os] //= [s1] [s2] [s3] [ro ros].
have [-> H] := IH ps b bs c.+1 xs os s1 s2 s3 ros; split=> // -[|t] lt dflt.
  by exists (Inp p q b0 b (split key c) x).
have [i [r e1 e2 e3]] := H t lt dflt; exists i; split=> //=.
  by rewrite e1; apply: set_nth_default; rewrite s2 -s3.
by rewrite e3 -[b :: bs]/([:: b] ++ bs); apply: set_nth_default; rewrite /= s2 -s3 ltnW.
Qed.

Lemma fwd_keeps key x0 xs b0 bs ps qs : keeps rs ->
  size ps = size qs -> size bs = size qs -> size xs = size qs ->
  always (keeps_ref x0 xs b0 bs) (forward_pass rs md key x0 xs b0 bs ps qs true).
Proof.
move=> kp s1 s2 s3; apply/always_bind; apply: always_true => y /=.
apply/always_bind.
pose Rel (i : inp X n' P Q) (s : lwts * anc * pop) := s.2 (i_b i) = i_x i /\ s.1.2 (i_b i) = i_bm1 i.
have H : forall c i, always (fun r => Rel i r.2) (fwd_body rs md true c i).
  move=> [w x] i; apply/always_bind; apply: always_imp (kp _ _ _ _) => A Ab.
  by apply/always_bind; apply: always_true => xt /=; rewrite /Rel /= /upd ffunE eqxx.
apply: always_imp (scan_always _ _ H) => -[c os] /= ros; split=> /=.
- by rewrite /upd ffunE eqxx.
- by have [] := All2_inputs x0 s1 s2 s3 ros.
- move=> t lt dflt; have [_ /(_ t lt dflt) [i [[e1 e2] e3 e4 e5]]] := All2_inputs x0 s1 s2 s3 ros.
  by rewrite -e3 e1 e2 e4 e5.
Qed.

Lemma size_inputs ps qs b0 bs key c xs :
  size ps = size qs -> size bs = size qs -> size xs = size qs ->
  size (@inputs X n' P Q ps qs b0 bs key c xs) = size qs.
Proof.
elim: qs ps b0 bs xs c => [|q qs IH] [|p ps] b0 [|b bs] [|x xs] c //= [s1] [s2] [s3].
by rewrite IH.
Qed.

Lemma fwd_size key x0 xs b0 bs ps qs cond :
  size ps = size qs -> size bs = size qs -> size xs = size qs ->
  always (fun o => size o.2 = size qs) (forward_pass rs md key x0 xs b0 bs ps qs cond).
Proof.
move=> s1 s2 s3; apply/always_bind; apply: always_true => y /=; apply/always_bind.
by apply: always_imp (scan_size _ _ _) => -[c os] /= ->; rewrite size_inputs.
Qed.

(** *** The returned trajectory (C13) *)

Definition traced (o : fwd_out X n') (r : seq X * seq 'I_n) : Prop :=
  [/\ size r.1 = (size o.2).+1, size r.2 = (size o.2).+1
    & forall t, (t <= size o.2)%N -> forall dx db dg,
        nth dx r.1 t = (nth dg (gens o) t).2 (nth db r.2 t)].

Definition linked (o : fwd_out X n') (r : seq X * seq 'I_n) : Prop :=
  forall t, (t < size o.2)%N -> forall db dg,
    nth db r.2 t = (nth dg o.2 t).1.2 (nth db r.2 t.+1).

(** Reversed form: [gs] most recent first, [zs] pairs (state, index). *)
Definition on_gens (gs : seq (lwts * pop)) (zs : seq (X * 'I_n)) : Prop :=
  All2 (fun (g : lwts * pop) z => z.1 = g.2 z.2) gs zs.

Lemma All2_nth (I O : Type) (Rel : I -> O -> Prop) ins os : All2 Rel ins os ->
  forall t, (t < size ins)%N -> forall di do_, Rel (nth di ins t) (nth do_ os t).
Proof.
elim: ins os => [|i ins IH] [|o os] //= [ro ros] [|t] lt di dd //=.
exact: IH.
Qed.

Lemma on_gens_traced (o : fwd_out X n') (zs : seq (X * 'I_n)) : on_gens (rev (gens o)) zs ->
  traced o (rev (unzip1 zs), rev (unzip2 zs)).
Proof.
move=> H; have sz := All2_size H; rewrite size_rev in sz.
have sg : size (gens o) = (size o.2).+1 by case: (o) => -[lw x] outs /=; rewrite size_map.
rewrite sg in sz; split; rewrite /= ?size_rev ?size_map //.
move=> t lt dx db dg; rewrite !nth_rev ?size_map ?sz //.
have lt' : ((size o.2).+1 - t.+1 < size (rev (gens o)))%N by rewrite size_rev sg ltn_subrL.
have := All2_nth H lt' dg (dx, db).
rewrite nth_rev ?sg ?ltn_subrL // subSS.
have -> : ((size o.2).+1 - (size o.2 - t).+1 = t)%N by rewrite subSS subKn.
have lz : (size o.2 - t < size zs)%N by rewrite sz ltnS leq_subr.
rewrite (nth_map (dx, db)) // (nth_map (dx, db)) //.
Qed.

Lemma size_gens (o : fwd_out X n') : size (gens o) = (size o.2).+1.
Proof. by case: o => -[lw x] outs /=; rewrite size_map. Qed.

Lemma rev_gens_last (o : fwd_out X n') :
  rev (gens o) = last_gen o :: behead (rev (gens o)).
Proof.
case: o => -[lw x] outs /=.
elim/last_ind: outs => [|l [[lw' A] x'] IH] //=.
by rewrite map_rcons -rcons_cons rev_rcons last_rcons.
Qed.

Lemma bs_on_gens (Gam : X -> X -> Q -> R) key c gs qs x :
  size qs = size gs ->
  always (fun co => on_gens gs co.2) (scan (bwd_body Gam) x (bwd_inputs key c gs qs)).
Proof.
elim: gs qs c x => [|[lw g] gs IH] [|q qs] c x //= [sz].
move=> B; apply/always_bind; apply: always_imp (IH qs c.+1 (g B) sz) => -[y os] /= H.
by [].
Qed.

Lemma sampling_traced (Gam : X -> X -> Q -> R) key qs bT o cond : size qs = size o.2 ->
  always (traced o) (backward_sampling_pass mv Gam key qs bT o cond).
Proof.
move=> sz; rewrite /backward_sampling_pass.
case e: (last_gen o) => [lw x].
apply/always_bind; apply: always_true => -[B al].
apply/always_bind; apply: always_imp (bs_on_gens _ _ _ _ _) => [[y os] /= H|].
  by apply: (on_gens_traced (zs := (x B, B) :: os)); rewrite rev_gens_last e.
by rewrite size_rev size_behead size_rev size_gens sz.
Qed.

Lemma scanning_traced key bT o :
  always (fun r => traced o r /\ linked o r) (backward_scanning_pass mv key bT o).
Proof.
rewrite /backward_scanning_pass; case e: (last_gen o) => [lw x].
apply/always_bind; apply: always_true => -[B al]; apply/always_bind.
have H gs (As : seq anc) k : size As = size gs ->
   always (fun co : 'I_n * seq (X * 'I_n) => on_gens gs co.2 /\
       forall t, (t < size As)%N -> forall dA db,
         nth db (unzip2 co.2) t = fun_of_fin (nth dA As t) (nth db (k :: unzip2 co.2) t))
     (scan (@scan_body X n') k (zip (unzip2 gs) As)).
  elim: gs As k => [|[lw' g] gs IH] [|A As] k //= [sz].
  have := IH As (A k) sz; rewrite always_bind; apply: always_imp => -[c os] /= [H1 H2].
  by split=> // -[|t] lt dA db //=; rewrite (H2 t lt dA db).
have sAs : size (rev [seq s.1.2 | s <- o.2]) = size (behead (rev (gens o))).
  by rewrite size_rev size_map size_behead size_rev size_gens.
have := H (behead (rev (gens o))) (rev [seq s.1.2 | s <- o.2]) B sAs.
rewrite -[unzip2 (behead _)]behead_map -/(unzip2 _) rev_unzip2.
apply: always_imp => -[c os] /= [H1 H2]; split.
  by apply: (on_gens_traced (zs := (x B, B) :: os)); rewrite rev_gens_last e.
move=> t lt db dg /=.
have so : size os = size o.2 by rewrite (All2_size H1) size_behead size_rev size_gens.
rewrite size_rev size_map in H2.
have lt2 : (size o.2 - t.+1 < size o.2)%N by rewrite ltn_subrL; case: (size o.2) lt.
have := H2 (size o.2 - t.+1)%N lt2 (dg.1.2) db.
rewrite nth_rev ?size_map // subnSK // subKn ?(ltnW lt) //.
rewrite (nth_map dg) // nth_rev /= ?size_map ?so ?ltnS ?(ltnW lt) //.
rewrite nth_rev /= ?size_map ?so ?ltnS //.
by rewrite !subSS -[in nth _ (B :: _) (_ - t)](subnSK lt).
Qed.

(** *** Unchanged index, unchanged state (C14) *)

Lemma kernel_always key x0 xs b0 bs ps qs backward cond
    (PO : fwd_out X n' -> Prop) (PR : seq X * seq 'I_n -> Prop) :
  size ps = size qs -> size bs = size qs -> size xs = size qs ->
  always PO (forward_pass rs md key x0 xs b0 bs ps qs cond) ->
  (forall o r, PO o -> size o.2 = size qs -> traced o r -> (~~ backward -> linked o r) -> PR r) ->
  always (fun r => PR r.1) (kernel rs mv md key x0 xs b0 bs ps qs backward cond).
Proof.
move=> s1 s2 s3 Ho H; apply/always_bind.
apply: always_imp (always_and Ho (@fwd_size key x0 xs b0 bs ps qs cond s1 s2 s3)) => o [po so].
apply/always_bind; case: backward H => H.
  apply: always_imp (sampling_traced _ _ _ _ _) => [[xs' Bs] tr /=|]; last by rewrite so.
  exact: H po so tr _.
apply: always_imp (scanning_traced _ _ _) => -[xs' Bs] [tr lk] /=.
by apply: H po so tr _ => _.
Qed.

Definition unchanged (x0 : X) (xs : seq X) (b0 : 'I_n) (bs : seq 'I_n) (r : seq X * seq 'I_n) : Prop :=
  forall t, (t <= size xs)%N ->
    nth b0 r.2 t = nth b0 (b0 :: bs) t -> nth x0 r.1 t = nth x0 (x0 :: xs) t.

Lemma keeps_traced x0 xs b0 bs o r :
  keeps_ref x0 xs b0 bs o -> traced o r -> unchanged x0 xs b0 bs r.
Proof.
case: o => -[lw y] outs [/= e0 so H] [_ _ tr] t lt eb.
rewrite (tr t _ x0 b0 (lw, y)) ?so // eb; case: t lt {eb} => [|t] lt //=.
rewrite (nth_map (lw, [ffun=> ord0], y)) ?so //=.
by have [] := H t lt (lw, [ffun=> ord0], y).
Qed.

Lemma kernel_unchanged key x0 xs b0 bs ps qs backward : keeps rs ->
  size ps = size qs -> size bs = size qs -> size xs = size qs ->
  always (fun r => unchanged x0 xs b0 bs r.1) (kernel rs mv md key x0 xs b0 bs ps qs backward true).
Proof.
move=> kp s1 s2 s3; apply: kernel_always s1 s2 s3 (fwd_keeps key x0 b0 kp s1 s2 s3) _.
by move=> o r ko _ tr _; apply: keeps_traced ko tr.
Qed.

Lemma kernel_sizes key x0 xs b0 bs ps qs backward cond :
  size ps = size qs -> size bs = size qs -> size xs = size qs ->
  always (fun r => size r.1.1 = (size xs).+1 /\ size r.1.2 = (size bs).+1)
    (kernel rs mv md key x0 xs b0 bs ps qs backward cond).
Proof.
move=> s1 s2 s3.
apply: (@kernel_always key x0 xs b0 bs ps qs backward cond (fun _ => True)
   (fun r => size r.1 = (size xs).+1 /\ size r.2 = (size bs).+1)) => //; first exact: always_true.
by move=> o r _ so [-> -> _] _; rewrite so s2 s3.
Qed.

(** *** Unconditional SMC (C15) *)

Definition ignores_ref (rs : resampler n) : Prop :=
  forall key w i j i' j', rs key w i j false = rs key w i' j' false.

Lemma fwd_unconditional key x0 xs b0 bs x0' xs' b0' bs' ps qs f :
  ignores_ref rs -> size xs' = size xs -> size bs' = size bs ->
  E (forward_pass rs md key x0 xs b0 bs ps qs false) f
  = E (forward_pass rs md key x0' xs' b0' bs' ps qs false) f.
Proof.
move=> ig sx sb; rewrite /forward_pass !E_bind; apply: eq_E => y /=; rewrite !E_bind.
set c0 := (fun l => _, y).
pose g (co : ('I_n -> R) * pop * seq (lwts * anc * pop)) := f (log_w0 md y, y, co.2).
transitivity (E (scan (fwd_body rs md false) c0 (inputs ps qs b0 bs (split key 1) 0 xs)) g).
  by apply: eq_E => -[c o].
transitivity (E (scan (fwd_body rs md false) c0 (inputs ps qs b0' bs' (split key 1) 0 xs')) g);
  last by apply: eq_E => -[c o].
move: (split key 1) => kl.
elim: ps qs b0 b0' bs bs' xs xs' 0%N c0 g sx sb => [|p ps IH] [|q qs] b0 b0' [|b bs] [|b' bs'] [|x xs] [|x' xs']
  c c0 g //= [sx] [sb].
rewrite !E_bind; case: c0 => [w x1]; rewrite /fwd_body /= (ig _ _ _ _ b0' b') !E_bind.
apply: eq_E => A /=; rewrite !E_bind; apply: eq_E => xt /=.
rewrite !E_bind; set c1 := (fun l => _, xt); set o := (log_wt _ _ _ _ _, _, _).
by apply: (IH qs b b' bs bs' xs xs' c.+1 c1 (fun co => E (let '(c', os) := co in Ret (c', o :: os)) g)).
Qed.

Lemma kernel_unconditional key x0 xs b0 bs x0' xs' b0' bs' ps qs (backward : bool) f :
  ignores_ref rs -> size xs' = size xs -> size bs' = size bs ->
  backward \/ (forall k w i j g, E (mv k w i) (fun r => g r.1) = E (mv k w j) (fun r => g r.1)) ->
  E (kernel rs mv md key x0 xs b0 bs ps qs backward false) f
  = E (kernel rs mv md key x0' xs' b0' bs' ps qs backward false) f.
Proof.
move=> ig sx sb bm; rewrite /kernel E_bind [RHS]E_bind.
rewrite -(@fwd_unconditional key x0 xs b0 bs x0' xs' b0' bs' ps qs _ ig sx sb).
apply: eq_E => o; rewrite !E_bind; case: backward bm => bm.
  rewrite /backward_sampling_pass; case: (last_gen o) => lw x; by rewrite !E_bind.
have {}bm : forall k w i j g, E (mv k w i) (fun r => g r.1) = E (mv k w j) (fun r => g r.1) by case: bm.
rewrite /backward_scanning_pass; case: (last_gen o) => lw x; rewrite !E_bind.
pose K (B : 'I_n) : prog (seq X * seq 'I_n) :=
  do (_, outs) <- scan (@scan_body X n') B (zip (behead (rev (unzip2 (gens o)))) (rev [seq s.1.2 | s <- o.2]));
  Ret (rev (x B :: unzip1 outs), rev (B :: unzip2 outs)).
have G i (g : seq X * seq 'I_n -> R) :
   E (mv (split key 2) (normalize lw) i) (fun r => E (let '(B, _) := r in K B) g)
   = E (mv (split key 2) (normalize lw) i) (fun r => (fun B => E (K B) g) r.1).
  by apply: eq_E => -[].
etransitivity; first exact: G.
etransitivity; last by symmetry; exact: G.
exact: (bm _ _ _ _ (fun B => E (K B) _)).
Qed.

End Csmc.
