(** * ErgodicCsmc: the long run of the kernel of csmc.py. *)
From Coq Require Import Reals Lra FunctionalExtensionality.
From mathcomp Require Import all_ssreflect all_algebra.
From Verif Require Import RInst Prog ProgTheory Resampling Spec ResamplingProofs KillingProofs MoveProofs ResamplingSpecs.
From Verif Require Import Csmc SmcTheory CsmcInvariance CsmcProofs CsmcSpecs CsmcFinal.
From Verif Require Import ErgodicSpec ErgodicTheory ShiftTheory ErgodicContracts ErgodicChain.

Set Implicit Arguments.
Unset Strict Implicit.
Unset Printing Implicit Defensive.
Import GRing.Theory Num.Theory Order.TTheory.
Local Open Scope ring_scope.

(** ** Complements to ShiftTheory *)
Section More.
Variables (X : Type) (n' : nat).
Local Notation n := n'.+1.
Local Notation gstep := (gstep X n').
Local Notation ginit := (ginit X n').
Implicit Types (st : seq gstep).

Lemma all_moved_rcons st st' s s' : all_moved st st' -> step_moved s s' -> all_moved (rcons st s) (rcons st' s').
Proof. by elim: st st' => [|u st IH] [|u' st'] //= [h1 h2] h3; split=> //; exact: IH. Qed.

Lemma all_moved_rev st st' : all_moved st st' -> all_moved (rev st) (rev st').
Proof. by elim: st st' => [|u st IH] [|u' st'] //= [h1 h2]; rewrite !rev_cons; apply: all_moved_rcons => //; exact: IH. Qed.

Lemma path_moved_ex (p p' : seq (X * 'I_n)) : unzip1 p = unzip1 p' -> exists q, path_moved q p = p'.
Proof.
elim: p p' => [|[x b] p IH] [|[x' b'] p'] //=; first by exists [::].
by move=> [-> /IH [q <-]]; exists ((b' - b) :: q); rewrite /= addrC subrK.
Qed.

Fixpoint each (P : gstep -> Prop) st : Prop := if st is s :: st' then P s /\ each P st' else True.

Lemma changes_moved q (p p' : seq (X * 'I_n)) :
  changes (unzip2 (path_moved q p)) (unzip2 (path_moved q p')) = changes (unzip2 p) (unzip2 p').
Proof.
rewrite /changes; elim: p p' q => [|z p IH] [|z' p'] q //=; rewrite IH; congr (~~ _ :: _).
by apply/eqP/eqP => [/addIr|->].
Qed.

Lemma gkern_joint (g g' : ginit) z0 z0' bk bk' mv mv' st st' backward p p' (f : seq X -> seq bool -> R) :
  init_moved g g' -> all_moved st st' -> size p = (size st).+1 -> unzip1 p = unzip1 p' ->
  (forall w a k F, prob_vec w -> E (mv' (moved_w a w) (k + a)) F = E (mv w k) (fun i => F (i + a))) ->
  E (gkern g' z0' bk' mv' st' backward p') (fun o => f (unzip1 o) (changes (unzip2 p') (unzip2 o)))
  = E (gkern g z0 bk mv st backward p) (fun o => f (unzip1 o) (changes (unzip2 p) (unzip2 o))).
Proof.
move=> ig al sp e mm; have [q <-] := path_moved_ex e.
rewrite (gkern_moved z0 z0' bk bk' backward q _ ig al sp mm); apply: eq_E => o.
by rewrite path_moved_states changes_moved.
Qed.

Lemma rchanges_rev (p : seq (X * 'I_n)) (xs : seq X) (bs : seq 'I_n) : size xs = size bs ->
  rchanges bs (unzip2 (rev p)) = rev (changes (unzip2 (rev (zip xs bs))) (unzip2 p)).
Proof.
move=> sz; rewrite /rchanges /unzip2 !map_rev revK; congr (rev (changes (rev _) _)).
by rewrite -/(unzip2 (zip xs bs)) unzip2_zip // sz.
Qed.

Lemma rchangesE (bs bs' : seq 'I_n) : size bs = size bs' -> rchanges bs bs' = changes bs bs'.
Proof. by move=> sz; rewrite /rchanges /changes -rev_zip // map_rev revK. Qed.

Lemma each_rcons P st s : each P (rcons st s) <-> each P st /\ P s.
Proof.
elim: st => [|u st IH] /=; first by split=> -[].
by split=> [[h1 /IH [h2 h3]]|[[h1 h2] h3]] //; split=> //; apply/IH.
Qed.

Lemma each_rev P st : each P st -> each P (rev st).
Proof. by elim: st => [|u st IH] //= [h1 h2]; rewrite rev_cons; apply/each_rcons; split=> //; exact: IH. Qed.

Lemma may_reach_all (g : ginit) st ys :
  each (fun s => may_spread s /\ forall y, may_propose s y) st -> (forall y, may_start g y) -> size ys = (size st).+1 ->
  may_reach g st ys.
Proof.
elim: st ys => [|s st IH] [|y ys] //=; first by case: ys.
by move=> [[h1 h2] h3] h4 [sz]; split=> //; exact: IH.
Qed.

Definition step_proper (s : gstep) : Prop :=
  (forall w i j, prob_vec w -> proper (g_rs s w i j)) /\ (forall xm b x, proper (g_prop s xm b x)).

Lemma gfwd_proper (g : ginit) z0 st p : (forall b x, proper (g0_prop g b x)) -> each step_proper st ->
  proper (gfwd g z0 st p).
Proof.
move=> pg; elim: st p => [|s st IH] p /=; first by move=> _; apply: proper_bind.
move=> [[h1 h2] h3]; apply: proper_bind; first exact: IH.
by move=> h; apply: proper_bind; [apply: h1; exact: normalize_prob|move=> A; apply: proper_bind].
Qed.

Lemma gkern_proper (g : ginit) z0 bk mv st backward p : (forall b x, proper (g0_prop g b x)) -> each step_proper st ->
  (forall w k, prob_vec w -> proper (mv w k)) -> proper (gkern g z0 bk mv st backward p).
Proof.
move=> pg ps pm; apply: proper_bind; first exact: gfwd_proper.
move=> h; apply: proper_bind; first by apply: pm; exact: normalize_prob.
by move=> k; rewrite /gback; case: backward => //; exact: gbs_proper.
Qed.

End More.

Section IndepPop.
Variables (X : finType) (n' : nat).
Local Notation n := n'.+1.
Local Notation pop := {ffun 'I_n -> X}.
Implicit Types (a b : 'I_n).

Lemma sum_moved_pop a (F : pop -> R) : \sum_x F x = \sum_x F (moved a x).
Proof.
rewrite (reindex (moved a)) //; exists (moved (- a)) => x _; apply/ffunP => l; rewrite !ffunE ?opprK ?addrK ?subrK //.
Qed.

Lemma upd_moved_pop a (x : pop) b y : upd (moved a x) (b + a) y = moved a (upd x b y).
Proof. by apply/ffunP => l; rewrite !ffunE -[in RHS](inj_eq (addIr a)) subrK. Qed.

Lemma indep_moved (m m' : prog pop) (mu mu' : 'I_n -> X -> R) a b x f :
  samples_indep m mu -> samples_indep m' mu' -> (forall i y, mu' (i + a) y = mu i y) ->
  E (do xt <- m'; Ret (upd xt (b + a) x)) f = E (do xt <- m; Ret (upd xt b x)) (fun xt => f (moved a xt)).
Proof.
case=> _ _ e [_ _ e'] em; rewrite !E_bind e e' (sum_moved_pop a); apply: eq_bigr => y _ /=.
rewrite upd_moved_pop (prod_moved a); congr (_ * _); apply: eq_bigr => i _.
by rewrite em ffunE addrK.
Qed.

Lemma indep_possible (m : prog pop) (mu : 'I_n -> X -> R) b x y :
  samples_indep m mu -> (forall i y, 0 < mu i y) ->
  possible (fun xt : pop => forall l, l != b -> xt l = y) (do xt <- m; Ret (upd xt b x)).
Proof.
case=> pm pmu e mu0; apply: possible_bind.
have : 0 < Pr m (fun xt => xt == [ffun _ => y]).
  rewrite /Pr e; apply: (@sum_pos _ _ [ffun _ => y]) => [z|].
    by rewrite mulr_ge0 ?ler0n //; apply: prodr_ge0 => i _; exact: ltW.
  by rewrite eqxx mulr1; apply: prodr_gt0 => i _; rewrite ffunE.
move/(Pr_possible pm); apply: possible_imp => xt /eqP -> /= l lb.
by rewrite !ffunE (negbTE lb).
Qed.

End IndepPop.

Lemma normalize_log_moved n' (a : 'I_n'.+1) (l : 'I_n'.+1 -> R) : normalize_log (moved_w a l) = moved_w a (normalize_log l).
Proof.
apply: functional_extensionality => i; rewrite /normalize_log /logsumexp /moved_w; congr (_ - ln _).
by rewrite (sum_moved a); apply: eq_bigr => j _; rewrite addrK.
Qed.

Lemma exp_inj_R (u v : R) : exp u = exp v -> u = v. Proof. exact: exp_inv. Qed.

Section Csmc.
Variables (X : finType) (n' : nat) (P Q : Type) (md : model X n' P Q).
Variables (mu0 : X -> R) (mut : X -> P -> X -> R).
Local Notation n := n'.+1.

(** Independent proposals with positive laws; log-densities that follow a rotation of the particles. *)
Definition rotating_model : Prop :=
  [/\ forall key, samples_indep (M0_rvs md key) (fun _ => mu0),
      forall x (a i : 'I_n), M0_logpdf md (moved a x) (i + a) = M0_logpdf md x i,
      forall key xm p, samples_indep (Mt_rvs md key xm p) (fun i => mut (xm i) p),
      forall xm xt p (a i : 'I_n), Mt_logpdf md (moved a xm) (moved a xt) p (i + a) = Mt_logpdf md xm xt p i
    & (forall x, 0 < mu0 x) /\ forall x p y, 0 < mut x p y].

Lemma markov_rotating : markov_model md mu0 mut -> rotating_model.
Proof.
case=> s0 l0 st lt; split=> //.
- by move=> x a i; apply: exp_inj_R; rewrite !l0 ffunE addrK.
- by move=> xm xt p a i; apply: exp_inj_R; rewrite !lt !ffunE addrK.
- split=> [x|x p y].
    by have := l0 [ffun=> x] ord0; rewrite ffunE => <-; apply/RltE; exact: exp_pos.
  by have := lt [ffun=> x] [ffun=> y] p ord0; rewrite !ffunE => <-; apply/RltE; exact: exp_pos.
Qed.

Variables (rs : resampler n) (mv : mover n).
Variables (ps : seq P) (qs : seq Q) (backward : bool).
Hypothesis mk : rotating_model.
Hypothesis gr : good_resampler rs.
Hypothesis rot : rotates_anc (fun key w i j => rs key w i j true).
Hypothesis mrot : rotates_move (index_of mv).
Hypothesis szp : size ps = size qs.

Definition csmc_kern (key : key) x0 xs b0 bs := drop_weights (kernel rs mv md key x0 xs b0 bs ps qs backward true).

Lemma cinit_moved key key' : init_moved (cinit md key) (cinit md key').
Proof.
case: mk => s0 l0 st lt _; split=> [a b x f|xt a] /=; first exact: indep_moved.
rewrite /log_w0 -normalize_log_moved; congr normalize_log; apply: functional_extensionality => i.
by rewrite /moved_w ffunE; have := l0 xt a (i - a); rewrite subrK => ->.
Qed.

Lemma cstep_moved key key' p q : step_moved (cstep md rs key p q) (cstep md rs key' p q).
Proof.
case: mk => s0 l0 st lt _; split=> [w a a' i j f pw|xm a b x f|xm xt a|x y] //=.
- by apply: (rot (split key' 1) (split key 1)).
- by apply: indep_moved; [exact: st|exact: st|move=> i y /=; rewrite ffunE addrK].
- rewrite /log_wt -normalize_log_moved; congr normalize_log; apply: functional_extensionality => i.
  by rewrite /moved_w !ffunE; have := lt xm xt p a (i - a); rewrite subrK => ->.
Qed.

Lemma inputs_moved b0 bs key c xs b0' bs' key' xs' :
  size bs = size qs -> size xs = size qs -> size bs' = size qs -> size xs' = size qs ->
  all_moved (isteps md rs (inputs ps qs b0 bs key c xs)) (isteps md rs (inputs ps qs b0' bs' key' c xs')).
Proof.
elim: (qs) (ps) szp b0 bs c xs b0' bs' xs' => [|q qs' IH] [|p ps'] // sp b0 [|b bs] c [|x xs] // b0' [|b' bs'] [|x' xs'] //=.
by move=> [s2] [s3] [s4] [s5]; split; [exact: cstep_moved|apply: IH => //; case: sp].
Qed.

Lemma csmc_joint key key' x0 xs b0 bs b0' bs' (f : seq X -> seq bool -> R) :
  size xs = size qs -> size bs = size qs -> size bs' = size qs ->
  E (csmc_kern key x0 xs b0 bs) (fun r => f r.1 (rchanges (b0 :: bs) r.2))
  = E (csmc_kern key' x0 xs b0' bs') (fun r => f r.1 (rchanges (b0' :: bs') r.2)).
Proof.
move=> sx sb sb'; rewrite /csmc_kern.
rewrite !(@E_kernel X n' P Q md rs mv _ x0 xs _ _ ps qs backward (x0, ord0)) //.
have un c0 (cs : seq 'I_n) : size cs = size qs -> unzip1 (rev (zip (x0 :: xs) (c0 :: cs))) = rev (x0 :: xs).
  by move=> sc; rewrite [LHS]map_rev -/(unzip1 _) unzip1_zip //= ?sx ?sc.
have rw c0 (cs : seq 'I_n) (p : seq (X * 'I_n)) : size cs = size qs ->
    f (unzip1 (rev p)) (rchanges (c0 :: cs) (unzip2 (rev p)))
    = f (rev (unzip1 p)) (rev (changes (unzip2 (rev (zip (x0 :: xs) (c0 :: cs)))) (unzip2 p))).
  by move=> sc; rewrite (@rchanges_rev _ _ p (x0 :: xs)) ?/= ?sx ?sc // /unzip1 map_rev.
rewrite (eq_E _ (fun p => rw b0 bs p sb)) (eq_E _ (fun p => rw b0' bs' p sb')).
apply: (gkern_joint (x0, ord0) (x0, ord0) (fun c => split (split key' 2) c) (fun c => split (split key 2) c)
  backward (fun us cs => f (rev us) (rev cs))).
- exact: cinit_moved.
- by apply: all_moved_rev; exact: inputs_moved.
- rewrite !size_rev size_map -(size_map (fun i => (i_x i, i_b i)) (inputs _ _ _ _ _ _ _)) inputs_ref //=.
- by rewrite !un.
- by move=> w a k F pw; apply: mrot.
Qed.

Lemma csmc_free key key' x0 xs b0 bs b0' bs' (f : seq X -> R) :
  size xs = size qs -> size bs = size qs -> size bs' = size qs ->
  E (csmc_kern key x0 xs b0 bs) (fun r => f r.1) = E (csmc_kern key' x0 xs b0' bs') (fun r => f r.1).
Proof. by move=> sx sb sb'; exact: (csmc_joint key key' x0 b0 b0' (fun us _ => f us)). Qed.

Hypothesis mpr : forall key w k, prob_vec w -> proper (mv key w k).

Lemma csteps_proper b0 bs key c xs : each (@step_proper X n') (rev (isteps md rs (inputs ps qs b0 bs key c xs))).
Proof.
apply: each_rev; case: mk => s0 l0 st lt _.
elim: (inputs _ _ _ _ _ _ _) => [|i l IH] //=; split=> //; split=> [w a b pw|xm b x] /=.
  by have [_] := gr (split (i_key i) 1) pw; exact.
by apply: proper_bind => //; case: (st (split (i_key i) 0) xm (i_p i)).
Qed.

Lemma cinit_proper key b x : proper (g0_prop (cinit md key) b x).
Proof. by case: mk => s0 l0 st lt _; apply: proper_bind => //; case: (s0 (split key 0)). Qed.

Lemma csmc_gproper key z0 bk k b0 bs key' c xs b p : proper (gkern (cinit md key) z0 bk (gmv mv k)
  (rev (isteps md rs (inputs ps qs b0 bs key' c xs))) b p).
Proof.
apply: gkern_proper; [exact: cinit_proper|exact: csteps_proper|].
by move=> w j pw; apply: proper_bind => //; exact: mpr.
Qed.

Lemma csmc_total key x0 xs b0 bs : size xs = size qs -> size bs = size qs ->
  E (csmc_kern key x0 xs b0 bs) (fun _ => 1) = 1.
Proof.
move=> sx sb; rewrite /csmc_kern (@E_kernel X n' P Q md rs mv _ x0 xs _ _ ps qs backward (x0, ord0)) //.
by apply: E_const; exact: csmc_gproper.
Qed.

Lemma csmc_sizes key x0 xs b0 bs : size xs = size qs -> size bs = size qs ->
  always (fun r => size r.1 = (size qs).+1 /\ size r.2 = (size qs).+1) (csmc_kern key x0 xs b0 bs).
Proof.
move=> sx sb; apply/always_bind.
have := @kernel_traced X n' P Q md rs mv key x0 xs b0 bs ps qs backward true (fun=> True) szp sb sx
  (always_true _ (fun _ => I)).
by apply: always_imp => r [o [_ [s1 s2] _ _]] /=; rewrite s1 s2 sx.
Qed.

Hypothesis spr : spreads (fun key w i j => rs key w i j true).
Hypothesis lea : leaves_index (index_of mv).

Lemma csmc_reach key x0 xs b0 bs ys : (0 < n')%N -> size xs = size qs -> size bs = size qs -> size ys = (size qs).+1 ->
  0 < Pr (csmc_kern key x0 xs b0 bs) (fun r => r.1 == ys).
Proof.
move=> n0 sx sb sy; rewrite /Pr /csmc_kern (@E_kernel X n' P Q md rs mv _ x0 xs _ _ ps qs backward (x0, ord0)) //.
apply: possible_E; [exact: csmc_gproper|by move=> p; exact: ler0n|].
have [mpos mtpos] : (forall x, 0 < mu0 x) /\ forall x p y, 0 < mut x p y by case: mk.
apply: (@possible_imp _ (fun p => unzip1 p = rev ys)) => [p e|].
  by rewrite [unzip1 _]map_rev [map _ _]e revK eqxx ltr01.
apply: gkern_reach => //; last first.
  move=> w k l pw w0 lk; have pr : proper (index_of mv (mv_key backward key (size qs)) w k).
    by apply: proper_bind => //; exact: mpr.
  by apply: possible_imp (Pr_possible pr (lea (mv_key backward key (size qs)) pw w0 lk)) => i /eqP.
apply: may_reach_all.
- apply: each_rev; elim: (inputs _ _ _ _ _ _ _) => [|i l IH] //=; split=> //; split=> [w a b m pw w0 mi|y xm b x] /=.
    have [l' l'b pr] := spr (split (i_key i) 1) b pw w0 mi; exists l' => //.
    have [_ prp] := gr (split (i_key i) 1) pw.
    by apply: possible_imp (Pr_possible (prp a b) pr) => A /eqP.
  by case: mk => _ _ st _ _; apply: (indep_possible _ _ _ (st _ _ _)).
- by move=> y b x; case: mk => s0 _ _ _ _; apply: (indep_possible _ _ _ (s0 _)).
- rewrite size_rev sy size_rev size_map -(size_map (fun i => (i_x i, i_b i))) inputs_ref // size_zip.
  by rewrite sx sb minnn.
Qed.

Lemma csmc_settles_near bias d : (0 < n')%N -> (0 < #|X|)%N -> 0 <= d -> (forall c, bias c = d * c) ->
  (forall key c, nearly_invariant (size qs) (path_target (Gamma0 md) (Gammat md) qs) (csmc_kern key) c (d * c)) ->
  settles (size qs) (path_target (Gamma0 md) (Gammat md) qs) csmc_kern bias.
Proof.
move=> n0 /card_gt0P [x _] d0 eb near.
apply: (@settles_of X n' (size qs) _ csmc_kern [::] _ _ _ _ _ (nseq_tuple _ x) bias d) => //.
- by move=> x0 xs; apply/RltE; exact: exp_pos.
- exact: csmc_sizes.
- exact: csmc_total.
- exact: csmc_free.
- by move=> *; exact: csmc_reach.
Qed.

Lemma csmc_forgets : (0 < n')%N -> (0 < #|X|)%N -> forgets_start (size qs) csmc_kern.
Proof.
move=> n0 /card_gt0P [x _].
apply: (@forgets_of X n' (size qs) csmc_kern [::] _ _ _ _ (nseq_tuple _ x)).
- exact: csmc_sizes.
- exact: csmc_total.
- exact: csmc_free.
- by move=> *; exact: csmc_reach.
Qed.

End Csmc.
