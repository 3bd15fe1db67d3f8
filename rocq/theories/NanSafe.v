(** * NanSafe: csmc.py never meets undefined weights on targets with zeros, whatever
    numbers its proposal log-densities are (C93). *)
From Coq Require Import Reals Lra FunctionalExtensionality.
From mathcomp Require Import all_ssreflect all_algebra.
From Verif Require Import RInst Prog ProgTheory Resampling Spec ResamplingProofs Csmc CsmcInvariance SweepTheory.
From Verif Require Import NanCsmc NanSpec NanNumbers NanProofs.

Set Implicit Arguments.
Unset Strict Implicit.
Unset Printing Implicit Defensive.
Import GRing.Theory Num.Theory Order.TTheory.
Local Open Scope ring_scope.

(** ** Programs *)
Lemma almost_obind A B (m : prog (option A)) (g : A -> prog (option B)) (P : option B -> Prop) :
  almost (fun o => if o is Some a then almost P (g a) else P None) m -> almost P (obind m g).
Proof. by move=> h; apply/almost_bind; apply: almost_imp h => -[a|]. Qed.

Lemma E0 A (m : prog A) : E m (fun _ => 0) = 0 :> R.
Proof. by elim: m => [a|k B p g IH] //=; rewrite big1 // => b _; rewrite IH mulr0. Qed.

Lemma almost_Pr A (m : prog A) (P : pred A) : almost (fun a => ~~ P a) m -> Pr m P = 0.
Proof.
move=> h; rewrite /Pr -[RHS](E0 m); apply: eq_E_almost; apply: almost_imp h => a /negbTE -> //.
Qed.

(** ** Weights *)
Section Weights.
Variable n' : nat.
Local Notation n := n'.+1.
Implicit Types l : 'I_n -> xnum.

Lemma norm_ok l : (forall i, low (l i)) -> (exists i, fin (l i)) ->
  usable (xnormalize_log l) /\ forall i, fin (xnormalize_log l i) = fin (l i).
Proof.
move=> lo ex; have u : usable l by apply/andP; split; [apply/forallP|apply/existsP].
by split=> [|i]; [rewrite usable_normalize|rewrite norm_usable //; case: (l i)].
Qed.

Lemma wnorm_pos l i : usable l -> (wnorm l i != 0) = fin (l i).
Proof.
move=> u; rewrite /wnorm u dens_fin mulf_eq0 invr_eq0 negb_or (lt0r_neq0 (wsum_gt0 u)) andbT //.
Qed.

Lemma wnorm_lt l i : usable l -> (0 < wnorm l i) = fin (l i).
Proof. by move=> u; rewrite -wnorm_pos // lt0r (proj1 (wnorm_prob u)) andbT. Qed.

Lemma bw_usable (g l : 'I_n -> xnum) j : (forall i, low (g i)) -> usable l -> fin (g j) -> fin (l j) ->
  usable (bw_log g l) /\ forall i, fin (bw_log g l i) -> fin (g i) /\ fin (l i).
Proof.
move=> lo u gj lj; have := amax_low lo (ex_intro _ j gj); case em: (xamax g) => [m|||] // _.
move/andP: u => [/forallP ul _].
have e i : bw_log g l i = xadd (xsub (g i) (Fin m)) (l i) by rewrite /bw_log em.
split.
  apply/andP; split; first by apply/forallP => i; rewrite e; have := lo i; have := ul i; case: (g i); case: (l i).
  by apply/existsP; exists j; rewrite e; case: (g j) gj; case: (l j) lj.
by move=> i; rewrite e; case: (g i); case: (l i).
Qed.
End Weights.

(** ** Resampling and moves *)
Lemma rs_support n (rs : resampler n) key (w : 'I_n -> R) i j :
  good_resampler rs -> prob_vec w -> 0 < w i ->
  almost (fun A : {ffun 'I_n -> 'I_n} => (A j == i) && [forall k, w (A k) != 0]) (rs key w i j true).
Proof.
move=> good pw wi; have [[rho co] pp] := good key w pw; apply: E0_almost => //.
apply: (mulfI (lt0r_neq0 wi)); rewrite mulr0 co big1 // => A ->.
case: (boolP [forall k, w (A k) != 0]) => [_|]; first by rewrite mulr0.
rewrite negb_forall => /existsP [k]; rewrite negbK => /eqP wk.
have := co (A k) k (fun A' => (A' == A)%:R); rewrite wk mul0r (bigD1 A) //= eqxx mulr1.
rewrite big1 => [|A' /andP [_ /negbTE ->]]; last by rewrite mulr0.
by rewrite addr0 => <-; rewrite ?mul0r ?mulr0.
Qed.

Lemma mv_support n (mv : mover n) key (w : 'I_n -> R) k :
  good_mover mv -> proper_mover mv -> prob_vec w -> 0 < w k -> almost (fun r => w r.1 != 0) (mv key w k).
Proof.
move=> good pm pw wk; apply: (@E0_almost _ _ (fun r => w r.1 != 0)); first exact: pm.
have := good key w pw (fun j => (~~ (w j != 0))%:R).
rewrite [RHS]big1 => [|j _]; last by case: (boolP (w j != 0)) => [_|]; rewrite ?mulr0 // negbK => /eqP ->; rewrite mul0r.
move/eqP; rewrite psumr_eq0 => [/allP /(_ k (mem_index_enum k))|j _].
  by rewrite mulf_eq0 (negbTE (lt0r_neq0 wk)) /= => /eqP.
by apply: mulr_ge0; [case: pw|apply: E_ge0 => [|a]; [exact: pm|exact: ler0n]].
Qed.

Section Safe.
Variables (X : Type) (n' : nat) (P Q : Type) (md : xmodel X n' P Q).
Local Notation n := n'.+1.
Local Notation pop := {ffun 'I_n -> X}.
Local Notation anc := {ffun 'I_n -> 'I_n}.
Local Notation lwts := (xlwts n').
Variables (rs : resampler n) (mv : mover n).
Hypotheses (rs_good : good_resampler rs) (mv_good : good_mover mv) (mv_proper : proper_mover mv).
Hypotheses (M0_fin : forall x i, fin (xM0_logpdf md x i)) (Mt_fin : forall xm xt p i, fin (xMt_logpdf md xm xt p i)).
Hypotheses (low0 : forall x, low (xGamma0 md x)) (lowt : forall x y q, low (xGammat md x y q)).
Local Notation ok0 := (fun x => fin (xGamma0 md x)).
Local Notation okt := (fun x y q => fin (xGammat md x y q)).

Lemma lw0_ok (x : pop) b : ok0 (x b) ->
  usable (xlog_w0 md x) /\ forall i, fin (xlog_w0 md x i) = ok0 (x i).
Proof.
move=> ob; have e i : fin (xsub (xGamma0 md (x i)) (xM0_logpdf md x i)) = ok0 (x i).
  by have := M0_fin x i; case: (xM0_logpdf md x i) => // r _; case: (xGamma0 md (x i)).
have [||u f] := @norm_ok n' (fun i => xsub (xGamma0 md (x i)) (xM0_logpdf md x i)).
- move=> i; have := M0_fin x i; have := low0 (x i); case: (xM0_logpdf md x i) => // r; by case: (xGamma0 md (x i)).
- by exists b; rewrite e.
by split=> // i; rewrite f e.
Qed.

Lemma lwt_ok (xm xt : pop) p q b : okt (xm b) (xt b) q ->
  usable (xlog_wt md xm xt p q) /\ forall i, fin (xlog_wt md xm xt p q i) = okt (xm i) (xt i) q.
Proof.
move=> ob; have e i : fin (xsub (xGammat md (xm i) (xt i) q) (xMt_logpdf md xm xt p i)) = okt (xm i) (xt i) q.
  by have := Mt_fin xm xt p i; case: (xMt_logpdf md xm xt p i) => // r _; case: (xGammat _ _ _ _).
have [||u f] := @norm_ok n' (fun i => xsub (xGammat md (xm i) (xt i) q) (xMt_logpdf md xm xt p i)).
- move=> i; have := Mt_fin xm xt p i; have := lowt (xm i) (xt i) q; case: (xMt_logpdf md xm xt p i) => // r.
  by case: (xGammat _ _ _ _).
- by exists b; rewrite e.
by split=> // i; rewrite f e.
Qed.

(** ** Forward *)
Fixpoint fpath (x : X) (xs : seq X) (qs : seq Q) : Prop :=
  match xs, qs with
  | y :: xs', q :: qs' => okt x y q /\ fpath y xs' qs'
  | [::], [::] => True
  | _, _ => False
  end.

Definition gen (s : lwts * anc * pop) : lwts * pop := (s.1.1, s.2).

Fixpoint outs_ok (g : lwts * pop) (outs : seq (lwts * anc * pop)) (qs : seq Q) : Prop :=
  match outs, qs with
  | s :: outs', q :: qs' =>
      [/\ usable s.1.1, forall k, fin (s.1.1 k) -> fin (g.1 (s.1.2 k)) /\ okt (g.2 (s.1.2 k)) (s.2 k) q
        & outs_ok (gen s) outs' qs']
  | [::], [::] => True
  | _, _ => False
  end.

Lemma fwd_safe ps qs b bs key c (l : lwts) (x : pop) xs : let lw := xnormalize_log l in
  size ps = size qs -> size bs = size qs -> fpath (x b) xs qs -> usable lw -> fin (lw b) ->
  almost (fun o => if o is Some co then outs_ok (lw, x) co.2 qs /\ fin ((last (lw, x) (map gen co.2)).1 (last b bs)) else False)
    (oscan (xfwd_body rs md true) (fun i => xexp (lw i), x) (xinputs ps qs b bs key c xs)).
Proof.
elim: qs ps b bs c l x xs => [|q qs IH] [|p ps] b [|b' bs] c l x [|y xs] lw //= [s1] [s2] [okb pth] u fb.
apply: almost_obind; apply: almost_obind.
rewrite /on_weights finite_normalized finite_normalize u.
apply/almost_bind; apply: almost_imp (@rs_support _ rs _ (wnorm lw) b b' rs_good (wnorm_prob u) _); last by rewrite wnorm_lt.
move=> A /andP [/eqP Ab /forallP Aw] /=.
apply/almost_bind; apply: always_almost; apply: always_true => xt /=.
set xt' := upd xt b' y; set xm := take_ax x A.
have ok' : okt (xm b') (xt' b') q by rewrite /xm /take_ax ffunE Ab /xt' upd_same.
have [u' f'] := lwt_ok p ok'.
have xb : xt' b' = y by rewrite /xt' upd_same.
apply: almost_obind; apply: almost_imp (IH ps b' bs c.+1 _ xt' xs s1 s2 _ u' _); last 2 first.
- by rewrite xb.
- by rewrite f'.
move=> [[c2 os]|] //= [oo fl]; split=> //; split=> // k.
by rewrite f' /xm /take_ax ffunE => ok; split=> //; rewrite -wnorm_pos.
Qed.

(** ** Backward, generations from the last to the first *)
Fixpoint rok (g : lwts * pop) (gs : seq (lwts * pop)) (As : seq anc) (qs : seq Q) : Prop :=
  match gs, As, qs with
  | g' :: gs', A :: As', q :: qs' =>
      [/\ usable g'.1, forall k, fin (g.1 k) -> fin (g'.1 (A k)) /\ okt (g'.2 (A k)) (g.2 k) q & rok g' gs' As' qs']
  | [::], [::], [::] => forall k, fin (g.1 k) -> ok0 (g.2 k)
  | _, _, _ => False
  end.

Fixpoint rpath (x : X) (ys : seq X) (qs : seq Q) : Prop :=
  match ys, qs with
  | y :: ys', q :: qs' => okt y x q /\ rpath y ys' qs'
  | [::], [::] => ok0 x
  | _, _ => False
  end.

Lemma outs_rok g gs As qs' outs qs : usable g.1 -> rok g gs As qs' -> outs_ok g outs qs ->
  usable (last g (map gen outs)).1 /\
  exists gs', catrev (map gen outs) (g :: gs) = last g (map gen outs) :: gs'
    /\ rok (last g (map gen outs)) gs' (catrev [seq s.1.2 | s <- outs] As) (catrev qs qs').
Proof.
elim: outs qs g gs As qs' => [|s outs IH] [|q qs] g gs As qs' //= u r; first by move=> _; split=> //; exists gs.
move=> [u' h oo]; exact: (IH qs (gen s) (g :: gs) (s.1.2 :: As) (q :: qs')).
Qed.

Lemma rpath_fwd x ys rqs zs qs' : rpath x ys rqs -> fpath x zs qs' ->
  exists y0 rest, [/\ catrev ys (x :: zs) = y0 :: rest, ok0 y0 & fpath y0 rest (catrev rqs qs')].
Proof.
elim: ys x rqs zs qs' => [|y ys IH] x [|q rqs] zs qs' //=; first by move=> o f; exists x, zs.
by move=> [o r] f; apply: (IH y rqs (x :: zs) (q :: qs')).
Qed.

Lemma bwd_safe key c g gs As qs k : rok g gs As qs -> fin (g.1 k) ->
  almost (fun o => if o is Some co then rpath (g.2 k) (unzip1 co.2) qs else False)
    (oscan (xbwd_body (xGammat md)) (g.2 k) (xbwd_inputs key c gs qs)).
Proof.
elim: gs g As qs k c => [|g' gs IH] g [|A As] [|q qs] k c //=; first by move=> h fk; exact: h.
case: g' => l' x' [/= u h r] fk; have [fA oA] := h k fk.
apply: almost_obind; apply: almost_obind; rewrite /on_weights.
have [ub fb] := bw_usable (fun i => lowt (x' i) (g.2 k) q) u oA fA.
have -> : finite_weights (xbwd_weights (xGammat md) (g.2 k) x' l' q)
  = Some (wnorm (bw_log (fun i => xGammat md (x' i) (g.2 k) q) l')).
  by have := finite_normalize (bw_log (fun i => xGammat md (x' i) (g.2 k) q) l'); rewrite ub.
move=> B; rewrite cat_law_prob; last exact: wnorm_prob.
rewrite wnorm_pos // => /fb [oB fB] /=.
by apply: almost_obind; apply: almost_imp (IH (l', x') As qs B c.+1 r fB) => -[[c2 os]|].
Qed.

Lemma scan_safe g gs As qs k : rok g gs As qs -> fin (g.1 k) ->
  almost (fun o => if o is Some co then rpath (g.2 k) (unzip1 co.2) qs else False)
    (oscan (@xscan_body X n') k (zip (unzip2 gs) As)).
Proof.
elim: gs g As qs k => [|g' gs IH] g [|A As] [|q qs] k //=; first by move=> h fk; exact: h.
case: g' => l' x' [/= u h r] fk; have [fA oA] := h k fk.
apply: almost_obind => /=.
by apply: almost_obind; apply: almost_imp (IH (l', x') As qs (A k) r fA) => -[[c2 os]|].
Qed.

Lemma rpath_size x ys qs : rpath x ys qs -> size ys = size qs.
Proof. by elim: ys x qs => [|y ys IH] x [|q qs] //= [_ /IH ->]. Qed.

Definition good_out (qs : seq Q) (o : option (seq X * seq 'I_n)) : Prop :=
  if o is Some (ys, cs) then
    exists y0 ys' c0 cs', [/\ ys = y0 :: ys', cs = c0 :: cs', ok0 y0, fpath y0 ys' qs & size cs' = size qs]
  else False.

Lemma finish k (x : X) (outs : seq (X * 'I_n)) qs : rpath x (unzip1 outs) (rev qs) ->
  good_out qs (Some (rev (x :: unzip1 outs), rev (k :: unzip2 outs))).
Proof.
move=> r; have [y0 [ys [e o f]]] := rpath_fwd (zs := [::]) (qs' := [::]) r I.
have sz : size (rev (k :: unzip2 outs)) = (size qs).+1.
  by rewrite size_rev /= size_map -(size_rev qs) -(rpath_size r) size_map.
case ec: (rev (k :: unzip2 outs)) sz => [|c0 cs] //= [sc].
exists y0, ys, c0, cs; split=> //.
by move: f; rewrite -/(rev (rev qs)) revK.
Qed.

Lemma behead_rev_gens (lw : lwts) (x : pop) outs gs' :
  catrev (map gen outs) [:: (lw, x)] = last (lw, x) (map gen outs) :: gs' ->
  behead (rev (xgens (lw, x, outs))) = gs'.
Proof. by rewrite /xgens /rev /= => ->. Qed.

Theorem xkernel_safe key x0 xs b0 bs ps qs backward :
  size ps = size qs -> size bs = size qs -> ok0 x0 -> fpath x0 xs qs ->
  almost (good_out qs) (odrop (xkernel rs mv md key x0 xs b0 bs ps qs backward true)).
Proof.
move=> s1 s2 o0 pth; rewrite /odrop; apply/almost_bind; rewrite /xkernel; apply: almost_obind.
rewrite /xforward_pass; apply/almost_bind; apply: always_almost; apply: always_true => y.
set y0 := upd y b0 x0; have yb : y0 b0 = x0 by rewrite /y0 upd_same.
have [u f] := @lw0_ok y0 b0 ltac:(by rewrite yb).
have fb : fin (xlog_w0 md y0 b0) by rewrite f yb.
have pth' : fpath (y0 b0) xs qs by rewrite yb.
apply: almost_obind; apply: almost_imp (@fwd_safe ps qs b0 bs (split key 1) 0 _ y0 xs s1 s2 pth' u fb).
move=> [[c outs]|] //= [oo fl].
have [|uT [gs' [eg r]]] := @outs_rok (xlog_w0 md y0, y0) [::] [::] [::] outs qs u _ oo.
  by move=> k /=; rewrite f.
apply: almost_obind.
have eL : xlast_gen (xlog_w0 md y0, y0, outs) = last (xlog_w0 md y0, y0) (map gen outs) by [].
have eB := behead_rev_gens eg.
move: uT r fl; set gT := last _ _ => uT r fl.
have fw : finite_weights (xnormalize gT.1) = Some (wnorm gT.1) by rewrite finite_normalize uT.
have cont (k : 'I_n) (outs' : seq (X * 'I_n)) W : rpath (gT.2 k) (unzip1 outs') (rev qs) ->
   almost (fun a => good_out qs (omap fst a))
    (Ret (Some (rev (gT.2 k :: unzip1 outs'), rev (k :: unzip2 outs'), W : seq lwts))).
  by move=> h; exact: finish.
case: backward.
- rewrite /xbackward_sampling_pass eL eB; move: uT fw fl r cont; rewrite /gT; case: (last _ _) => lT xT /= uT fw fl r cont.
  apply: almost_obind; rewrite /on_weights fw; apply/almost_bind.
  have mvs ky : almost (fun r => wnorm lT r.1 != 0) (mv ky (wnorm lT) (last b0 bs)).
    by apply: mv_support; rewrite ?wnorm_lt //; exact: wnorm_prob.
  apply: almost_imp (mvs _) => -[B a] /=; rewrite wnorm_pos // => fB.
  apply: almost_obind; apply: almost_imp (@bwd_safe (split key 2) 0 (lT, xT) gs' _ (rev qs) B r fB) => -[[c2 os]|] //= h.
  exact: (cont _ _ [::] h).
- rewrite /xbackward_scanning_pass eL; move: uT fw fl r cont; rewrite /gT; case: (last _ _) => lT xT /= uT fw fl r cont.
  apply: almost_obind; rewrite /on_weights fw; apply/almost_bind.
  have mvs ky : almost (fun r => wnorm lT r.1 != 0) (mv ky (wnorm lT) (last b0 bs)).
    by apply: mv_support; rewrite ?wnorm_lt //; exact: wnorm_prob.
  apply: almost_imp (mvs _) => -[B a] /=; rewrite wnorm_pos // => fB.
  have -> : behead (rev (unzip2 (xgens (xlog_w0 md y0, y0, outs)))) = unzip2 gs'.
    by rewrite -eB /unzip2 -map_rev -behead_map.
  apply: almost_obind; apply: almost_imp (@scan_safe (lT, xT) gs' _ (rev qs) B r fB) => -[[c2 os]|] //= h.
  exact: (cont _ _ [::] h).
Qed.
End Safe.
