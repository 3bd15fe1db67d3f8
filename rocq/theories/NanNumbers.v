(** * NanNumbers: normalised weights in the arithmetic of NanCsmc.v. *)
From Coq Require Import Reals Lra FunctionalExtensionality.
From mathcomp Require Import all_ssreflect all_algebra.
From Verif Require Import RInst Prog Resampling Spec ResamplingProofs CsmcInvariance NanCsmc NanSpec.

Set Implicit Arguments.
Unset Strict Implicit.
Unset Printing Implicit Defensive.
Import GRing.Theory Num.Theory Order.TTheory.
Local Open Scope ring_scope.

(** The number whose logarithm is [a]. *)
Definition dens (a : xnum) : R := if a is Fin r then exp r else 0.
Definition low (a : xnum) : bool := match a with Fin _ | NInf => true | _ => false end.
Definition fin (a : xnum) : bool := if a is Fin _ then true else false.

Lemma dens_ge0 a : 0 <= dens a.
Proof. by case: a => [r|||] //=; exact/ltW/expR_gt0. Qed.
Lemma dens_fin a : fin a = (dens a != 0).
Proof. by case: a => [r|||] /=; rewrite ?eqxx // lt0r_neq0 //; exact: expR_gt0. Qed.
Lemma log_dens a y : log_of a y -> dens a = y /\ low a.
Proof. by case: a => //= ->. Qed.

Lemma sum_low (I : Type) (r : seq I) (l : I -> xnum) : all (fun i => low (l i)) r ->
  \big[xadd/Fin 0]_(i <- r) xexp (l i) = Fin (\sum_(i <- r) dens (l i)).
Proof.
elim: r => [|i r IH] /=; first by rewrite !big_nil.
by rewrite !big_cons => /andP [li /IH ->]; case: (l i) li.
Qed.

Definition high (a : xnum) : bool := match a with PInf | NaN => true | _ => false end.
Lemma high_low a : high a = ~~ low a. Proof. by case: a. Qed.

Lemma sum_high (I : Type) (r : seq I) (l : I -> xnum) : ~~ all (fun i => low (l i)) r ->
  high (\big[xadd/Fin 0]_(i <- r) xexp (l i)).
Proof.
have nn (s : seq I) : \big[xadd/Fin 0]_(i <- s) xexp (l i) <> NInf.
  elim: s => [|i s IH]; rewrite ?big_nil // big_cons.
  by case: (l i) => [x|||] //=; case: (bigop _ _ _) IH.
elim: r => [|i r IH] //=; rewrite big_cons negb_and => /orP [h|/IH h].
  by case: (l i) h => //=; case: (bigop _ _ _) (nn r).
by case: (l i) => [x|||] /=; case: (bigop _ _ _) h.
Qed.

Section Weights.
Variable n' : nat.
Local Notation n := n'.+1.
Implicit Type l : 'I_n -> xnum.

Definition usable l : bool := [forall i, low (l i)] && [exists i, fin (l i)].
Definition wsum l : R := \sum_i dens (l i).
Definition wnorm l (i : 'I_n) : R := if usable l then dens (l i) / wsum l else 0.

Lemma wsum_gt0 l : usable l -> 0 < wsum l.
Proof.
move=> /andP [_ /existsP [i fi]]; rewrite lt_neqAle; apply/andP; split.
  apply/eqP => e; have : dens (l i) = 0.
    move/esym: e => /eqP; rewrite psumr_eq0 => [/allP /(_ i (mem_index_enum i)) /eqP //|j _].
    exact: dens_ge0.
  by move/eqP; apply/negP; rewrite -dens_fin.
by apply: sumr_ge0 => j _; exact: dens_ge0.
Qed.

Lemma wnorm_prob l : usable l -> prob_vec (wnorm l).
Proof.
move=> u; rewrite /wnorm u; split=> [i|].
  by apply: divr_ge0; [exact: dens_ge0 | exact/ltW/wsum_gt0].
by rewrite -mulr_suml divff // lt0r_neq0 // wsum_gt0.
Qed.

Lemma wnorm_bad l : ~~ usable l -> forall i, wnorm l i = 0.
Proof. by move=> u i; rewrite /wnorm (negbTE u). Qed.

Lemma lse_usable l : usable l -> xlogsumexp l = Fin (ln (wsum l)).
Proof.
move=> u; have := wsum_gt0 u; move/andP: u => [/forallP lo _] h.
by rewrite /xlogsumexp sum_low; [rewrite /= -/(wsum l) h | apply/allP => i _].
Qed.

Lemma norm_usable l : usable l ->
  forall i, xnormalize_log l i = if l i is Fin r then Fin (r - ln (wsum l)) else NInf.
Proof.
move=> u i; rewrite /xnormalize_log lse_usable //.
by move/andP: u => [/forallP /(_ i)]; case: (l i).
Qed.

Lemma norm_bad l : ~~ usable l -> exists i, xnormalize_log l i = NaN.
Proof.
rewrite negb_and => h; rewrite /xnormalize_log /xlogsumexp.
case: (boolP [forall i, low (l i)]) h => /= [/forallP lo nf|nl _].
  exists ord0; rewrite sum_low; last by apply/allP => i _.
  have e i : l i = NInf.
    by move/existsPn: nf => /(_ i); have := lo i; case: (l i).
  have -> : \sum_i dens (l i) = 0 by rewrite big1 // => i _; rewrite e.
  by rewrite /= ltxx eqxx e.
have [i hi] : exists i, ~~ low (l i) by apply/forallPn.
exists i; have : high (\big[xadd/Fin 0]_i xexp (l i)).
  by apply: sum_high; apply/allPn; exists i => //; exact: mem_index_enum.
by case: (bigop _ _ _) => //; case: (l i) hi.
Qed.

Lemma finite_normalize l :
  finite_weights (xnormalize l) = if usable l then Some (wnorm l) else None.
Proof.
rewrite /finite_weights /xnormalize; case: ifP => [/forallP fin|nf]; case: (boolP (usable l)) => u //.
- congr Some; apply: functional_extensionality => i; rewrite norm_usable // /wnorm u.
  case: (l i) => [r|||] /=; rewrite ?mul0r // expRB exp_ln //; apply/RltE; exact: wsum_gt0.
- have [i e] := norm_bad u; by have := fin i; rewrite e.
- move/negP: nf; case; apply/forallP => i; rewrite norm_usable //; by case: (l i).
Qed.

(** Normalising twice. *)
Lemma usable_normalize l : usable (xnormalize_log l) = usable l.
Proof.
case: (boolP (usable l)) => u; last first.
  have [i e] := norm_bad u; apply/negbTE; rewrite negb_and; apply/orP; left.
  by apply/forallPn; exists i; rewrite e.
apply/andP; split; first by apply/forallP => i; rewrite norm_usable //; case: (l i).
move/andP: (u) => [_ /existsP [i fi]]; apply/existsP; exists i; rewrite norm_usable //; by case: (l i) fi.
Qed.

Lemma wnorm_normalize l : wnorm (xnormalize_log l) = wnorm l.
Proof.
apply: functional_extensionality => i; rewrite /wnorm usable_normalize; case: ifP => // u.
have s0 := wsum_gt0 u.
have e j : dens (xnormalize_log l j) = dens (l j) / wsum l.
  rewrite norm_usable //; case: (l j) => [r|||] /=; rewrite ?mul0r //.
  by rewrite expRB exp_ln //; apply/RltE.
rewrite e {2}/wsum; under eq_bigr do rewrite e.
by rewrite -mulr_suml -/(wsum l) [wsum l / _]divff ?divr1 // lt0r_neq0.
Qed.

Lemma finite_normalized l :
  finite_weights (fun i => xexp (xnormalize_log l i)) = finite_weights (xnormalize (xnormalize_log l)).
Proof.
by rewrite [in RHS]finite_normalize usable_normalize wnorm_normalize -finite_normalize.
Qed.

(** The weights of the backward draw (csmc.py:224-228). *)
Lemma amax_low (g : 'I_n -> xnum) : (forall i, low (g i)) ->
  (exists i, fin (g i)) -> fin (xamax g).
Proof.
move=> lo [i fi]; rewrite /xamax.
have lowm (s : seq 'I_n) : low (\big[xmax/g ord0]_(j <- s) g j).
  elim: s => [|j s IH]; rewrite ?big_nil // big_cons.
  by have := lo j; case: (g j) => //=; case: (bigop _ _ _) IH.
have : i \in index_enum (ordinal_finType n) by exact: mem_index_enum.
elim: (index_enum _) => [|j s IH] //=; rewrite inE big_cons => /orP [/eqP <-|/IH h].
  by case: (g i) fi => // r _ /=; case: (bigop _ _ _) (lowm s).
by have := lo j; case: (g j) => //=; case: (bigop _ _ _) h.
Qed.

Lemma amax_ninf (g : 'I_n -> xnum) : (forall i, g i = NInf) -> xamax g = NInf.
Proof.
move=> e; rewrite /xamax; elim: (index_enum _) => [|j s IH]; first by rewrite big_nil.
by rewrite big_cons IH e.
Qed.

Definition bw_log (g l : 'I_n -> xnum) (i : 'I_n) : xnum := xadd (xsub (g i) (xamax g)) (l i).

Lemma bw_law (g l : 'I_n -> xnum) : (forall i, low (g i)) ->
  if finite_weights (xnormalize (bw_log g l)) is Some v
  then prob_vec (cat_law v) /\
       forall j, (\sum_k wnorm l k * dens (g k)) * cat_law v j = wnorm l j * dens (g j)
  else forall k, wnorm l k * dens (g k) = 0.
Proof.
move=> lo; rewrite finite_normalize.
have cases : (exists m, xamax g = Fin m) \/ (forall i, g i = NInf).
  case: (boolP [exists i, fin (g i)]) => [/existsP fg|/existsPn nf]; last first.
    by right=> i; have := lo i; have := nf i; case: (g i).
  by left; have := amax_low lo fg; case: (xamax g) => // m _; exists m.
case: cases => [[m em]|ni].
- have eb i : dens (bw_log g l i) = exp (- m) * (dens (g i) * dens (l i)).
    rewrite /bw_log em; have := lo i; case: (g i) => //= [r|] _.
      by case: (l i) => [x|||] /=; rewrite ?mulr0 // !expRD; Rring.
    by case: (l i) => [x|||] /=; rewrite ?mul0r ?mulr0.
  case: ifP => u; last first.
    move=> k; rewrite /wnorm; case: (boolP (usable l)) => ul; last by rewrite mul0r.
    have : ~~ fin (bw_log g l k).
      apply/negP => fk; move/negP: u; case; apply/andP; split; last by apply/existsP; exists k.
      apply/forallP => i; rewrite /bw_log em; move/andP: ul => [/forallP /(_ i)].
      by have := lo i; case: (g i) => //=; case: (l i).
    rewrite dens_fin negbK eb mulf_eq0 (negbTE (lt0r_neq0 (expR_gt0 _))) /= mulf_eq0.
    by move/orP => [/eqP ->|/eqP ->]; rewrite ?mulr0 ?mul0r.
  have pv := wnorm_prob u; split=> [|j]; first exact: cat_prob.
  rewrite cat_law_prob //.
  rewrite /wnorm u; case: (boolP (usable l)) => ul; last first.
    by rewrite big1 ?mul0r // => k _; rewrite mul0r.
  have sl := wsum_gt0 ul; have sb := wsum_gt0 u.
  have -> : \sum_k dens (l k) / wsum l * dens (g k) = wsum (bw_log g l) / (exp (- m) * wsum l).
    rewrite /wsum; under [in RHS]eq_bigr do rewrite eb.
    rewrite -mulr_sumr -/(wsum l) -mulf_div divff ?mul1r; last exact: lt0r_neq0 (expR_gt0 _).
    by rewrite mulr_suml; apply: eq_bigr => k _; Rring.
  rewrite eb; have em0 := expR_gt0 (- m).
  move: (wsum _) (wsum _) (exp _) (dens _) (dens _) sl sb em0 => a b c x y /lt0r_neq0 /eqP a0 /lt0r_neq0 /eqP b0 /lt0r_neq0 /eqP c0.
  by toR; field; split.
- have -> : usable (bw_log g l) = false.
    apply/negbTE; rewrite negb_and; apply/orP; left; apply/forallPn; exists ord0.
    by rewrite /bw_log amax_ninf // ni.
  by move=> k; rewrite ni /= mulr0.
Qed.

(** The weights of the particles, for independent proposals (csmc.py:132-133,153-154). *)
Lemma prop_law (X : finType) (m : prog {ffun 'I_n -> X}) (mu : 'I_n -> X -> R)
    (g : 'I_n -> X -> R) (lg : 'I_n -> X -> xnum) (lm : {ffun 'I_n -> X} -> 'I_n -> xnum) :
  samples_indep m mu -> (forall x i, log_of (lm x i) (mu i (x i))) -> (forall i x, log_of (lg i x) (g i x)) ->
  (forall i x, g i x != 0 -> mu i x != 0) ->
  exists S : {ffun 'I_n -> X} -> R, forall b F,
    \sum_x g b x * E m (fun xt => F (upd xt b x))
    = \sum_xt S xt * wnorm (fun i => xsub (lg i (xt i)) (lm xt i)) b * F xt.
Proof.
move=> [_ pmu Em] hm hg ac.
pose l (xt : {ffun 'I_n -> X}) i := xsub (lg i (xt i)) (lm xt i).
exists (fun xt => if usable (l xt) then (\prod_i mu i (xt i)) * wsum (l xt) else 0) => b F.
under eq_bigr do rewrite Em.
rewrite (sum_upd_all (fun x => g b x) F (proj2 (pmu b))).
apply: eq_bigr => xt _; congr (_ * _).
have [gb lb] := log_dens (hg b (xt b)); have hb := hm xt b.
rewrite -/(l xt) /wnorm; case: (boolP (usable (l xt))) => u; last first.
  rewrite mul0r; case: (eqVneq (g b (xt b)) 0) => [->|gn]; first by rewrite mul0r.
  have mn := ac _ _ gn.
  have fb : fin (l xt b).
    have fl : fin (lg b (xt b)) by rewrite dens_fin gb.
    rewrite /l; case: (lg b (xt b)) fl => // r _; move: hb; case: (lm xt b) => //= e.
    by rewrite e eqxx in mn.
  have [i hi] : exists i, ~~ low (l xt i).
    apply/forallPn; apply: contra u => lo; apply/andP; split=> //; apply/existsP; by exists b.
  have ib : i != b by apply: contraNneq hi => ->; case: (l xt b) fb.
  rewrite (bigD1 i) //= (_ : mu i (xt i) = 0) ?mul0r ?mulr0 //.
  have [_ lgi] := log_dens (hg i (xt i)); have := hm xt i; move: hi; rewrite /l.
  by case: (lg i (xt i)) lgi => // [r|] _; case: (lm xt i).
have mn : mu b (xt b) != 0.
  apply/eqP => m0; have g0 : g b (xt b) = 0.
    by apply/eqP; case: (eqVneq (g b (xt b)) 0) => // /ac; rewrite m0 eqxx.
  move/andP: u => [/forallP /(_ b)]; rewrite /l.
  have -> : lm xt b = NInf.
    by move: hb; case: (lm xt b) => //= r e; have := expR_gt0 r; rewrite e m0 ltxx.
  have nf : ~~ fin (lg b (xt b)) by rewrite dens_fin gb g0 eqxx.
  by case: (lg b (xt b)) lb nf.
have -> : dens (l xt b) = g b (xt b) / mu b (xt b).
  rewrite /l -gb; move: hb; case: (lm xt b) => //= [r <-|e]; last by rewrite e eqxx in mn.
  by case: (lg b (xt b)) lb => //= [x|] _; rewrite ?mul0r // -expRB.
have sl := wsum_gt0 u; rewrite [in RHS](bigD1 b) //=.
move: (\prod_(i | i != b) _) (g b _) (mu b _) (wsum _) mn sl => p x y z /eqP y0 /lt0r_neq0 /eqP z0.
by toR; field; split.
Qed.

End Weights.
