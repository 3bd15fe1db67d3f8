(** * SmoothWitness: executions and targets on which the smoothing-gradient kernels fail. *)
From Coq Require Import Reals Lra.
From mathcomp Require Import all_ssreflect all_algebra.
From Verif Require Import RInst Prog ProgTheory Resampling Spec ResamplingProofs MoveProofs.
From Verif Require Import Csmc CsmcInvariance CsmcProofs KeyProofs CsmcSpecs CsmcFinal AuxCsmc SweepTheory AuxProofs AuxStruct AuxFinal.
From Verif Require Import TpFinal Smooth SmoothSpec PathTheory SmoothBack SmoothProofs SmoothFinal SmoothKeys.

Set Implicit Arguments.
Unset Strict Implicit.
Unset Printing Implicit Defensive.
Import GRing.Theory Num.Theory Order.TTheory.
Local Open Scope ring_scope.

Lemma almost_ex A (m : prog A) (P Q : A -> Prop) : proper m -> almost P m -> always Q m -> exists a, P a /\ Q a.
Proof.
elim: m => [a _ pa qa|k B p g IH [p0 p1 pg] al aw]; first by exists a.
have [b nb] : exists b, p b != 0.
  apply/existsP; apply: contra_eqT p1 => /existsPn no; rewrite big1 ?(eq_sym 0) ?oner_eq0 // => b _.
  by have := no b; rewrite negbK => /eqP.
exact: IH (pg b) (al b nb) (aw b).
Qed.

Lemma E_ge_always A (m : prog A) f c : proper m -> always (fun a => c <= f a) m -> c <= E m f.
Proof.
elim: m => [a|k B p g IH] //= [p0 p1 pg] al; rewrite -[c]mul1r -p1 mulr_suml; apply: ler_sum => b _.
by rewrite ler_wpmul2l // IH.
Qed.

Lemma proper_bind_if A C (m : prog A) (g : A -> prog C) (P : A -> Prop) : proper m -> always P m ->
  (forall a, P a -> proper (g a)) -> proper (bind m g).
Proof.
move=> + + H; elim: m => [a _ /H|k B p h IH [p0 p1 pr] al] //=.
by split=> // b; apply: IH (pr b) (al b).
Qed.

Lemma proper_scan_if (C I O : Type) (body : C -> I -> prog (C * O)) (Inv : C -> Prop) ins c :
  (forall c i, Inv c -> proper (body c i)) -> (forall c i, always (fun r => Inv r.1) (body c i)) ->
  Inv c -> proper (scan body c ins).
Proof.
move=> H1 H2; elim: ins c => [|i ins IH] c ic //=.
apply: (@proper_bind_if _ _ _ _ (fun r => Inv r.1)) => [||[c' o] /= ic']; [exact: H1|exact: H2|].
by apply: proper_bind => [|[c'' os]] //; exact: IH.
Qed.

Lemma proper_choice k n' (w : 'I_n'.+1 -> R) : prob_vec w -> proper (choice k w).
Proof. by move=> pw; apply: proper_draw; exact: cat_prob. Qed.

Section Witness.
Variables (X : finZmodType) (n' : nat).
Local Notation n := n'.+1.
Variables (Q setting : Type).
Local Notation QQ := (setting * X * Q)%type.
Local Notation pop := (pop X n').
Local Notation lwts := (lwts n').
Local Notation anc := (anc n').
Local Notation fwd := (fwd X n').
Variables (noise ld : setting -> X -> R) (scale : setting -> X -> X).
Variables (val0 : X -> R) (valt : X -> X -> Q -> R) (g0 : X -> X) (ga gb : X -> X -> Q -> X).
Variables (rs : resampler n) (mv : mover n).

Local Notation bsamp := (sm_backward_sampling ld scale valt g0 ga gb mv).
Local Notation finish := (sm_finish ld scale valt g0 ga gb mv).
Local Notation afwd := (als_forward ld scale val0 valt g0 ga gb).
Local Notation akern := (als_kernel noise ld scale val0 valt g0 ga gb rs mv).
Variables (law0 lpdf0 : setting * X -> X -> R) (law lpdf : QQ -> X -> X -> R).
Local Notation tfwd := (atps_forward ld scale val0 valt g0 ga gb).
Local Notation tkern := (atps_kernel noise ld scale val0 valt g0 ga gb rs mv law0 lpdf0 law lpdf).

(** *** C28: the predecessors recorded for generation 1 *)
Lemma choices_nz (lw : 'I_n -> R) (A : anc) : \prod_i cat_law (normalize lw) (A i) != 0.
Proof.
apply/prodf_neq0 => i _; rewrite /cat_law (proj2 (normalize_prob lw)) divr1 lt0r_neq0 //; exact: normalize_gt0.
Qed.

(** The ancestors of generation 1 are [k] except for the reference; those of generation 2 are all
    the reference of generation 1. *)
Lemma wrong_head (x0 : pop) k (b0 b1 b2 i : 'I_n) (o : fwd) : x0 k != x0 b0 -> i != b1 ->
  f_x0 o = x0 -> f_A0 o = upd [ffun=> k] b1 b0 -> f_x0r o = take_ax x0 (f_A0 o) ->
  nth (f_A0 o) (sm_As o) 1 = upd [ffun=> b1] b2 b1 ->
  forall d dA, ~ own_predecessors d dA (sm_xs o) (sm_As o) (sm_xs_m_1 o) 0.
Proof.
move=> nk ni e1 e2 e3 e4 d dA /(_ i); rewrite /sm_xs_m_1 e4 /= e3 e1 e2 !ffunE (negbTE ni) /=.
have -> : (if i == b2 then b1 else b1) = b1 by case: ifP.
by rewrite eqxx => /eqP; rewrite eq_sym (negbTE nk).
Qed.

Lemma als_wrong key p0 p1 p2 (b0 b1 b2 i k : 'I_n) (x0 x1 x2 : pop) d dA : x0 k != x0 b0 -> i != b1 ->
  ~ almost (fun o => own_predecessors d dA (sm_xs o) (sm_As o) (sm_xs_m_1 o) 0)
      (afwd (@multinomial _) key p0 p1 [:: p2] b0 b1 [:: b2] x0 x1 [:: x2]).
Proof.
move=> nk ni /(_ [ffun=> k] (choices_nz _ _) [ffun=> b1] (choices_nz _ _)) /=.
exact: (@wrong_head x0 k b0 b1 b2 i).
Qed.

Lemma atps_wrong key p0 p1 p2 (b0 b1 b2 i k : 'I_n) (x0 : pop) d dA : x0 k != x0 b0 -> i != b1 ->
  (forall x, law0 p0 x != 0) -> (forall p xm x, law p xm x != 0) ->
  ~ almost (fun o => own_predecessors d dA (sm_xs o) (sm_As o) (sm_xs_m_1 o) 0)
      (tfwd (@multinomial _) law0 lpdf0 law lpdf key p0 p1 [:: p2] b0 b1 [:: b2]).
Proof.
move=> nk ni l0 lt.
have nz (f : 'I_n -> R) : (forall i, f i != 0) -> \prod_i f i != 0 by move=> fi; apply/prodf_neq0 => j _.
move=> /(_ x0 (nz _ (fun=> l0 _)) [ffun=> k] (choices_nz _ _) x0 (nz _ (fun=> lt _ _ _))).
move=> /(_ [ffun=> b1] (choices_nz _ _) x0 (nz _ (fun=> lt _ _ _))) /=.
exact: (@wrong_head x0 k b0 b1 b2 i).
Qed.

(** *** C46: two time steps with backward sampling *)
Lemma als_two_not_invariant key s0 s1 q :
  ~ leaves_invariant 1 (path_target val0 valt [:: q]) (fun x0 xs b0 bs =>
      drop_weights (akern key x0 xs b0 bs s0 [:: s1] [:: q] true)).
Proof.
move=> /(_ (fun xs _ => (size xs != 3%N)%:R)); rewrite /traj_sum.
rewrite big1 => [|x0 _]; last first.
  rewrite big1 // => b0 _; rewrite big1 // => xs _; rewrite big1 // => bs _.
  rewrite E_bind (@eq_E_always _ _ _ (fun=> 0)) ?E0 ?mulr0 //.
  have := size_tuple xs; have := size_tuple bs; move: (tval xs) (tval bs) => [|x1 [|? ?]] // [|b1 [|? ?]] // _ _.
  refine (always_imp _ (@als_two X n' Q setting noise ld scale val0 valt g0 ga gb rs mv key x0 x1 b0 b1 s0 s1 q)).
  by move=> -[[a c] l] /= [-> _].
move=> /esym /eqP; apply/negP; rewrite lt0r_neq0 // (bigD1 0) //=.
have pos (x0 : X) (xs : 1.-tuple X) :
  0 < path_target val0 valt [:: q] x0 xs * (size (x0 :: xs) != 3%N)%:R.
  by rewrite /= size_tuple mulr1; exact: expR_gt0.
rewrite ltr_paddr //.
  by do 4! (apply: sumr_ge0 => ? _); apply: ltW; exact: pos.
rewrite (bigD1 ord0) //= ltr_paddr //.
  by do 3! (apply: sumr_ge0 => ? _); apply: ltW; exact: pos.
rewrite (bigD1 [tuple 0]) //= ltr_paddr //.
  by do 2! (apply: sumr_ge0 => ? _); apply: ltW; exact: pos.
rewrite (bigD1 [tuple ord0]) //= ltr_paddr //; last exact: (pos 0 [tuple 0]).
by apply: sumr_ge0 => ? _; apply: ltW; exact: pos.
Qed.

(** *** C29, C46 for atp_csmc_s.py *)
Hypothesis noiseP : forall s, prob_vec (noise s).
Hypothesis law0P : forall p, prob_vec (law0 p).
Hypothesis lawP : forall p x, prob_vec (law p x).
Hypothesis rs_good : good_resampler rs.
Hypothesis mv_proper : forall key w k, prob_vec w -> proper (mv key w k).

(** The rest of the forward pass once x0 has been drawn. *)
Definition atps_rest key p0 p1 ps b0 b1 bs (x0 : pop) : prog fwd :=
  let lw0 := minus_max (fun l => sm_Gamma_0 ld scale val0 g0 p0 (x0 l) - lpdf0 p0 (x0 l)) in
  do A0 <- rs (split key 3) (normalize lw0) b0 b1 true;
  let x0r := take_ax x0 A0 in
  do x1 <- atps_Mt_rvs law (split (split key 0) 1) x0r p1;
  let lw1 := fun l => sm_Gamma_1 ld scale valt g0 ga gb p0 p1 (x0r l) (x1 l) - lpdf p1 (x0r l) (x1 l) in
  do (_, outs) <- scan (atps_body ld scale valt ga gb rs law lpdf) (normalize lw1, x1, x0r) (atps_inputs p1 ps b1 bs key 4);
  Ret (Fwd lw0 x0 A0 x0r lw1 x1 outs).

Lemma atps_fwdE key p0 p1 ps b0 b1 bs :
  tfwd rs law0 lpdf0 law lpdf key p0 p1 ps b0 b1 bs
  = do x0 <- draw (split (split key 0) 0) (fun x : pop => \prod_i law0 p0 (x i)); atps_rest key p0 p1 ps b0 b1 bs x0.
Proof. by []. Qed.

Lemma Mt_proper key x p : proper (atps_Mt_rvs law key x p : prog pop).
Proof. by apply: proper_draw; apply: (@prod_prob _ _ (fun i => law p (x i))) => i. Qed.

Lemma rest_proper key p0 p1 ps b0 b1 bs x0 : proper (atps_rest key p0 p1 ps b0 b1 bs x0).
Proof.
apply: proper_bind => [|A0]; first exact: (proj2 (rs_good _ (normalize_prob _))).
apply: proper_bind => [|x1]; first exact: Mt_proper.
apply: proper_bind => [|[c os] //].
apply: (@proper_scan_if _ _ _ _ (fun c => prob_vec c.1.1)); last exact: normalize_prob.
  move=> [[w x] x'] i pw; apply: proper_bind => [|A]; first exact: (proj2 (rs_good _ pw)).
  by apply: proper_bind => [|y //]; exact: Mt_proper.
move=> [[w x] x'] i; apply/always_bind; apply: always_true => A; apply/always_bind; apply: always_true => y.
exact: normalize_prob.
Qed.

Lemma rest_x0 key p0 p1 ps b0 b1 bs x0 : always (fun o => f_x0 o = x0) (atps_rest key p0 p1 ps b0 b1 bs x0).
Proof.
apply/always_bind; apply: always_true => A0; apply/always_bind; apply: always_true => x1.
by apply/always_bind; apply: always_true => -[c os].
Qed.

Lemma finish_proper key p0 p1 ps bT backward o : proper (finish key p0 p1 ps bT backward o).
Proof.
apply: proper_bind => [|[a b] //]; case: backward.
  apply: proper_bind => [|[B al]]; first exact: mv_proper (normalize_prob _).
  cbv zeta; apply: proper_bind => [|B1]; first exact: proper_choice (normalize_prob _).
  apply: proper_bind => [|[c os]].
    apply: (@proper_scan_if _ _ _ _ (fun=> True)) => // [[y z] i _|c i]; last exact: always_true.
    by apply: proper_bind => [|B2 //]; exact: proper_choice (normalize_prob _).
  by apply: proper_bind => [|B2 //]; exact: proper_choice (normalize_prob _).
rewrite /backward_scanning_pass; case: (last_gen _) => lw x.
apply: proper_bind => [|[B al]]; first exact: mv_proper (normalize_prob _).
apply: proper_bind => [|[c os] //].
by apply: (@proper_scan_if _ _ _ _ (fun=> True)) => // [c [y A] _|c i] //; exact: always_true.
Qed.

(** All particles of time 0 equal: so is the state of time 0 that is returned. *)
Lemma finish_head key p0 p1 ps bT backward o a : f_x0 o = [ffun=> a] ->
  always (fun r => ohead r.1.1 = Some a) (finish key p0 p1 ps bT backward o).
Proof.
move=> e; apply/always_bind; case: backward.
  rewrite /sm_backward_sampling; apply/always_bind; apply: always_true => -[B al]; cbv zeta.
  apply/always_bind; apply: always_true => B1; apply/always_bind; apply: always_true => -[c os].
  by apply/always_bind; apply: always_true => B0 /=; rewrite e ffunE.
apply: always_imp (scanning_traced mv (split key 2) bT (sm_gens o)) => -[xs Bs] [[t1 t2 H] _] /=.
case: xs t1 t2 H => [|x xs] // _ _ /(_ 0%N isT 0 ord0 (f_lw0 o, f_x0 o)) /= ->.
by rewrite e ffunE.
Qed.

Variable a : X.
Variable delta : R.
Hypothesis delta0 : 0 <= delta.
Variable s0 : setting.
Hypothesis law0_a : forall u, delta <= law0 (s0, u) a.

Lemma atps_often key x0 xs b0 bs ss qs (backward : bool) : (0 < size qs)%N ->
  size ss = size qs -> size bs = size qs -> size xs = size qs ->
  delta ^+ n <= E (tkern key x0 xs b0 bs s0 ss qs backward) (fun r => (ohead r.1 == Some a)%:R).
Proof.
move=> q0 s1 s2 s3; rewrite E_bind; apply: E_ge_always.
  by apply: proper_normals => // nu /List.in_map_iff [s [<- _]].
apply: always_imp (@normals_size _ _ _ _) => -[e0 es]; rewrite [_.2]/= size_map s1 => se; cbv zeta.
have sf := full_grad_size ga gb (g0 x0) x0 s3.
case: (full_grad ga gb (g0 x0) x0 xs qs) sf => [|g gs] // [sg].
have := @SmoothProofs.sm_aux_size X setting scale xs ss gs es; rewrite s3 sg se s1 => /(_ erefl erefl erefl).
rewrite [sm_aux _ (x0 :: _) _ _ _]/=.
move: (sm_aux scale xs ss gs es) => us su.
have step u p1 ps b bs' bT :
    delta ^+ n <= E (do o <- tfwd rs law0 lpdf0 law lpdf key (s0, u) p1 ps b0 b bs';
      do (xs, Bs, _) <- finish key (s0, u) p1 ps bT backward o; Ret (xs, Bs)) (fun r => (ohead r.1 == Some a)%:R).
  rewrite atps_fwdE; set f := fun r : seq X * seq 'I_n => _.
  have pr y : proper (do o <- atps_rest key (s0, u) p1 ps b0 b bs' y;
      do (xs, Bs, _) <- finish key (s0, u) p1 ps bT backward o; Ret (xs, Bs)).
    apply: proper_bind => [|o]; first exact: rest_proper.
    by apply: proper_bind => [|[[? ?] ?] //]; exact: finish_proper.
  rewrite -[X in _ <= X]/(\sum_(y : pop) (\prod_i law0 (s0, u) (y i)) * E (do o <- atps_rest key (s0, u) p1 ps b0 b bs' y;
      do (xs, Bs, _) <- finish key (s0, u) p1 ps bT backward o; Ret (xs, Bs)) f).
  rewrite (bigD1 [ffun=> a]) //=; apply: ler_paddr.
    apply: sumr_ge0 => y _; apply: mulr_ge0; first by apply: prodr_ge0 => i _; apply: (proj1 (law0P _)).
    by apply: E_ge0 => // r; rewrite ler0n.
  rewrite -[delta ^+ n]mulr1; apply: ler_pmul; [exact: exprn_ge0|exact: ler01| |].
    under eq_bigr do rewrite ffunE; rewrite prodr_const card_ord; apply: ler_expn2r => //.
    by rewrite nnegrE (le_trans delta0).
  apply: E_ge_always => //; apply/always_bind; apply: always_imp (rest_x0 _ _ _ _ _ _ _ _) => o eo.
  apply/always_bind; apply: always_imp (finish_head _ _ _ _ _ _ eo) => -[[c1 c2] l] /= hd.
  by rewrite /f /= hd eqxx.
case: qs q0 s1 s2 s3 su {sg se} => [|q qs] // _ s1 s2 s3 su.
case: ss s1 => [|s ss] // [s1]; case: us su => [|u us] // [su]; case: xs s3 => [|x xs] // [s3].
case: bs s2 => [|b bs] // [s2].
exact: step.
Qed.

(** The kernel visits [a] at time 0 with probability at least delta^n from every state. *)
Lemma atps_not_invariant key ss qs (backward : bool) : (0 < size qs)%N -> size ss = size qs ->
  traj_sum (size qs) (fun x0 xs (b0 : 'I_n) bs => path_target val0 valt qs x0 xs * (x0 == a)%:R)
  < delta ^+ n * traj_sum (size qs) (fun x0 xs (b0 : 'I_n) bs => path_target val0 valt qs x0 xs) ->
  ~ leaves_invariant (size qs) (path_target val0 valt qs) (fun x0 xs b0 bs => tkern key x0 xs b0 bs s0 ss qs backward).
Proof.
move=> q0 sz lt /(_ (fun xs _ => (ohead xs == Some a)%:R)) e; move: lt; rewrite ltNge => /negP; apply.
have -> : traj_sum (size qs) (fun x0 xs (b0 : 'I_n) bs => path_target val0 valt qs x0 xs * (x0 == a)%:R)
   = traj_sum (size qs) (fun x0 xs b0 bs => path_target val0 valt qs x0 xs *
       E (tkern key x0 xs b0 bs s0 ss qs backward) (fun r => (ohead r.1 == Some a)%:R)) by rewrite e.
rewrite /traj_sum mulr_sumr; apply: ler_sum => x0 _; rewrite mulr_sumr; apply: ler_sum => b0 _.
rewrite mulr_sumr; apply: ler_sum => xs _; rewrite mulr_sumr; apply: ler_sum => bs _.
rewrite mulrC; apply: ler_wpmul2l; first exact: ltW (expR_gt0 _).
by apply: atps_often; rewrite ?size_tuple.
Qed.

(** The reference is not among the particles with probability one. *)
Lemma atps_not_carried key p1 ps u (b0 b1 : 'I_n) bs x0 xs : 0 < delta -> x0 != a ->
  ~ almost (fun o => carries x0 xs b0 (b1 :: bs) (sm_gens o))
      (tfwd rs law0 lpdf0 law lpdf key (s0, u) p1 ps b0 b1 bs).
Proof.
move=> d0 nx; rewrite atps_fwdE => /(_ [ffun=> a]) al.
have nz : \prod_i law0 (s0, u) (([ffun=> a] : pop) i) != 0.
  by apply/prodf_neq0 => i _; rewrite ffunE lt0r_neq0 // (lt_le_trans d0).
have [o [[e _ _] eo]] := almost_ex (rest_proper key (s0, u) p1 ps b0 b1 bs [ffun=> a]) (al nz) (rest_x0 _ _ _ _ _ _ _ _).
by move: e; rewrite /= eo ffunE => e; rewrite e eqxx in nx.
Qed.
End Witness.

(** *** Reduction to the filtering-gradient potentials (C26) *)
Lemma reduces (X : finZmodType) (Q setting : Type) (ld : setting -> X -> R) (scale : setting -> X -> X)
    val0 (valt : X -> X -> Q -> R) g0 ga gb (p0 : setting * X) (pm p : setting * X * Q) xmm xm x :
  (forall a b q, ga a b q = 0) ->
  [/\ sm_Gamma_0 ld scale val0 g0 p0 x = al_Gamma_0_tilde ld scale val0 g0 p0.1 p0.2 x,
      sm_Gamma_1 ld scale valt g0 ga gb p0 p xm x = al_Gamma_t_tilde ld scale valt gb xm x p
    & sm_Gamma_t ld scale valt ga gb pm p xmm xm x = al_Gamma_t_tilde ld scale valt gb xm x p].
Proof.
move=> g; case: p0 pm p => [s0 u0] [[sm um] qm] [[s u] q]; rewrite /sm_Gamma_0 /sm_Gamma_1 /sm_Gamma_t.
rewrite /al_Gamma_0_tilde /al_Gamma_t_tilde /= !g !add0r.
have e (a b c : X) : a - (b + c) = a - b - c by rewrite opprD addrA.
by split; rewrite !e //; move: (ld _ _) (ld _ _) (valt _ _ _); clear; move=> *; toR; lra.
Qed.

(** *** Final forms *)
Section Final.
Variables (X : finZmodType) (n' : nat) (Q setting : Type).
Local Notation n := n'.+1.
Variables (noise ld : setting -> X -> R) (scale : setting -> X -> X).
Variables (val0 : X -> R) (valt : X -> X -> Q -> R) (g0 : X -> X) (ga gb : X -> X -> Q -> X).
Variables (rs : resampler n).
Hypothesis noiseP : forall s, prob_vec (noise s).
Hypothesis rs_good : good_resampler rs.
Hypothesis ldE : forall s, exists c, c != 0 /\ forall z, exp (ld s z) = c * noise s z.

Lemma als_inv mv key s0 ss qs (backward : bool) : good_mover mv -> (0 < size qs)%N -> size ss = size qs ->
  (backward -> (1 < size qs)%N /\ forall q, ohead qs = Some q -> forall a a' b, gb a b q = gb a' b q) ->
  leaves_invariant (size qs) (path_target val0 valt qs) (fun x0 xs b0 bs =>
    drop_weights (als_kernel noise ld scale val0 valt g0 ga gb rs mv key x0 xs b0 bs s0 ss qs backward)).
Proof. by move=> gm q0 sz hb; apply: (proj1 (@als_good _ _ _ _ noise ld scale val0 valt g0 ga gb rs mv noiseP rs_good ldE key s0 ss qs backward q0 sz hb)). Qed.

Lemma als_near c key s0 ss qs (backward : bool) : (0 < size qs)%N -> size ss = size qs ->
  (backward -> (1 < size qs)%N /\ forall q, ohead qs = Some q -> forall a a' b, gb a b q = gb a' b q) ->
  nearly_invariant (size qs) (path_target val0 valt qs) (fun x0 xs b0 bs =>
    drop_weights (als_kernel noise ld scale val0 valt g0 ga gb rs (@force_move _) key x0 xs b0 bs s0 ss qs backward))
    c (force_eps n c).
Proof.
move=> q0 sz hb.
apply: (proj2 (@als_good _ _ _ _ noise ld scale val0 valt g0 ga gb rs (@force_move _) noiseP rs_good ldE key s0 ss qs backward q0 sz hb)) => *.
exact: force_bound.
Qed.
End Final.

(** *** A target on which atp_csmc_s.py is not invariant: the group with two elements, uniform
    laws, a potential at time 0 that puts weight 2^n on the state 1. *)
Section TwoStates.
Local Notation X := [finZmodType of 'I_2].
Variable n' : nat.
Definition w_val0 (x : X) : R := if x == 0 then 0 else ln (2%:R ^+ n'.+1).
Definition w_valt (_ _ : X) (_ : unit) : R := 0.

Lemma w_target m x0 xs : path_target w_val0 w_valt (nseq m tt) x0 xs = if x0 == 0 then 1 else 2%:R ^+ n'.+1.
Proof.
rewrite /path_target (_ : log_path _ _ _ _ = 0) ?addr0 /w_val0.
  case: ifP => _; first exact: exp_0.
  by rewrite exp_ln //; apply/RltE; rewrite exprn_gt0 ?ltr0n.
by elim: xs m x0 => [|x xs IH] [|k] x0 //=; rewrite IH addr0.
Qed.

Lemma two_states m :
  traj_sum m (fun x0 xs (b0 : 'I_n'.+1) bs => path_target w_val0 w_valt (nseq m tt) x0 xs * (x0 == 0 :> X)%:R)
  < (1 / 2%:R) ^+ n'.+1 * traj_sum m (fun x0 xs (b0 : 'I_n'.+1) bs => path_target w_val0 w_valt (nseq m tt) x0 xs).
Proof.
pose M : R := \sum_(b0 : 'I_n'.+1) \sum_(xs : m.-tuple X) \sum_(bs : m.-tuple 'I_n'.+1) 1.
have M0 : 0 < M.
  have c1 : (0 < #|[finType of m.-tuple 'I_n'.+1]|)%N by apply/card_gt0P; exists (nseq_tuple m ord0).
  have c2 : (0 < #|[finType of m.-tuple X]|)%N by apply/card_gt0P; exists (nseq_tuple m 0).
  rewrite /M sumr_const pmulrn_lgt0 ?card_ord // sumr_const pmulrn_lgt0 // sumr_const pmulrn_lgt0 //.
  exact: ltr01.
have e (c : X -> R) (F : X -> seq X -> 'I_n'.+1 -> seq 'I_n'.+1 -> R) : (forall x0 xs b0 bs, F x0 xs b0 bs = c x0) -> traj_sum m F = (\sum_x0 c x0) * M.
  move=> H; rewrite /traj_sum mulr_suml; apply: eq_bigr => x0 _; rewrite /M mulr_sumr; apply: eq_bigr => b0 _.
  rewrite mulr_sumr; apply: eq_bigr => xs _; rewrite mulr_sumr; apply: eq_bigr => bs _.
  by rewrite H mulr1.
rewrite (e (fun x => (x == 0)%:R)) => [|x0 xs b0 bs]; last first.
  by rewrite w_target; case: ifP => _; rewrite ?mulr1 ?mulr0.
rewrite (e (fun x => if x == 0 then 1 else 2%:R ^+ n'.+1)) => [|x0 xs b0 bs]; last exact: w_target.
rewrite mulrA ltr_pmul2r // !big_ord_recl !big_ord0 !addr0 /= div1r exprVn mulrDr mulr1.
have p2 : 0 < (2%:R : R) ^+ n'.+1 by rewrite exprn_gt0 // ltr0n.
by rewrite mulVf ?lt0r_neq0 // ltr_addr invr_gt0.
Qed.

Definition w_law0 (_ : unit * X) (_ : X) : R := 1 / 2%:R.
Lemma w_law_prob : prob_vec (fun _ : X => 1 / 2%:R : R).
Proof.
split=> [x|]; first by rewrite divr_ge0 ?ler0n ?ler01.
rewrite !big_ord_recl big_ord0 addr0.
by toR; field.
Qed.
End TwoStates.

(** *** A potential with gradients, on the line *)
Lemma quad_lim (f : R -> R) (a b c : R) : (forall h, f h = a + b * h + c * (h * h)) -> derivable_pt_lim f 0%coqR b.
Proof.
move=> e eps ep; have cp : (0 < Rabs c + 1)%coqR by have := Rabs_pos c; lra.
have dp : (0 < eps / (Rabs c + 1))%coqR by apply: Rdiv_lt_0_compat.
exists (mkposreal _ dp) => h h0 /= hd; rewrite !e.
have -> : ((a + b * (0 + h)%coqR + c * ((0 + h)%coqR * (0 + h)%coqR) - (a + b * 0%coqR + c * (0%coqR * 0%coqR))) / h - b)%coqR = (c * h)%coqR.
  by toR; field.
rewrite Rabs_mult; apply: Rle_lt_trans (_ : _ <= (Rabs c + 1) * Rabs h)%coqR _.
  by apply: Rmult_le_compat_r; [exact: Rabs_pos|lra].
by have := Rmult_lt_compat_l _ _ _ cp hd; rewrite (_ : ((Rabs c + 1) * (eps / (Rabs c + 1)))%coqR = eps) //; field; lra.
Qed.

Definition ex_dot (a b : R^o) : R := a * b.
Definition ex_valt (x y : R^o) (_ : unit) : R := - (y - x) * (y - x) / 2%:R.

Lemma ex_slopes_hold :
  [/\ forall a b v, ex_dot (a + b) v = ex_dot a v + ex_dot b v,
      forall x y q, slope ex_dot (fun z => ex_valt z y q) x (y - x)
    & forall x y q, slope ex_dot (fun z => ex_valt x z q) y (x - y)].
Proof.
split; first by move=> a b v; exact: mulrDl.
  move=> x y q v; apply: (@quad_lim _ (ex_valt x y q) _ (- v * v / 2%:R)) => h.
  by rewrite /ex_valt /ex_dot /GRing.scale /=; toR; field.
move=> x y q v; apply: (@quad_lim _ (ex_valt x y q) _ (- v * v / 2%:R)) => h.
by rewrite /ex_valt /ex_dot /GRing.scale /=; toR; field.
Qed.
