(** * NanLaterAux: undefined gradients at later times in al_csmc_f.py and l_csmc_f.py (C91, C92). *)
From Coq Require Import Reals Lra FunctionalExtensionality.
From mathcomp Require Import all_ssreflect all_algebra.
From Verif Require Import RInst Prog ProgTheory Resampling Spec ResamplingProofs Csmc CsmcInvariance AuxCsmc SweepTheory.
From Verif Require Import AuxProofs AuxFinal ProperProofs.
From Verif Require Import NanCsmc NanSpec NanNumbers NanProofs NanFinal NanAgree NanRw NanRwProofs NanRwFinal NanAl NanAlProofs.
From Verif Require Import NanSingleFail NanAlFinal NanL NanLFinal NanLater.

Set Implicit Arguments.
Unset Strict Implicit.
Unset Printing Implicit Defensive.
Import GRing.Theory Num.Theory Order.TTheory.
Local Open Scope ring_scope.

Lemma lsum_pos_at (Y : finType) (nus : seq (Y -> R)) (zs : seq Y) G :
  (forall nu, List.In nu nus -> forall z, 0 < nu z) -> (forall ys, 0 <= G ys) -> size zs = size nus -> 0 < G zs ->
  0 < lsum nus G.
Proof.
elim: nus zs G => [|nu nus IH] [|z zs] G pos G0 //= [sz] Gz.
apply: (sum_pos_one (i := z)) => [y|].
  apply: mulr_ge0; first by apply: ltW; apply: pos; left.
  by apply: lsum_ge0 => // nu' h; apply: pos; right.
apply: mulr_gt0; first by apply: pos; left.
by apply: (IH zs) => // nu' h; apply: pos; right.
Qed.

Section Scan.
Variables (X : finZmodType) (n' : nat) (PP : Type).
Local Notation n := n'.+1.
Local Notation pop := (pop X n').
Local Notation anc := (anc n').
Local Notation lwts := (xlwts n').
Variables (rs : resampler n) (Wt : pop -> pop -> PP -> lwts).
Hypothesis rs_good : good_resampler rs.

(** [xal_body] and [xl_body], with the log-weights as a parameter (al_csmc_f.py:138-154,
    l_csmc_f.py:134-150). *)
Definition gbody (carry : ('I_n -> xnum) * pop) (i : sinp X n' PP)
  : prog (option ((('I_n -> xnum) * pop) * (lwts * anc * pop))) :=
  let: (w_t_m_1, x_t_m_1) := carry in
  odo A_t <- on_weights w_t_m_1 (fun w => rs (s_key i) w (s_bm1 i) (s_b i) true);
  let x_t_m_1 := take_ax x_t_m_1 A_t in
  let log_w_t := xminus_max (Wt x_t_m_1 (s_x i) (s_p i)) in
  Ret (Some ((xnormalize log_w_t, s_x i), (log_w_t, A_t, s_x i))).

Definition nanat (a : sinp X n' PP) : Prop := exists i, forall xm, Wt xm (s_x a) (s_p a) i = NaN.

Lemma dead_nan (l : lwts) i : l i = NaN -> dead (xminus_max l).
Proof.
move=> li; rewrite /dead finite_normalize /usable; case: forallP => // /(_ i).
by rewrite /xminus_max li.
Qed.

Lemma gscan_later ins (l : lwts) (y : pop) G : 0 < G None ->
  (forall c outs, dead (last l [seq o.1.1 | o <- outs]) -> 0 < G (Some (c, outs))) ->
  dead l \/ (exists a, List.In a ins /\ nanat a) ->
  0 < E (oscan gbody (xnormalize l, y) ins) G.
Proof.
elim: ins l y G => [|a ins IH] l y G GN Gd h.
  by case: h => [u|[i [[]]]]; apply: Gd.
cbn [oscan gbody]; rewrite E_obind E_obind E_on_weights; case e: (finite_weights _) => [v|] //.
case: h => [|[a' [ia na]]]; first by rewrite /dead e.
apply: E_gt0 => [|A]; first by have [] := rs_good (s_key a) (fin_norm_prob e).
cbn [E]; rewrite E_obind; apply: IH => // [c outs dd|].
  by cbn [E]; apply: Gd.
case: ia => [ea|ia]; last by right; exists a'.
by left; move: na; rewrite -ea => -[i ni]; apply: (@dead_nan _ i).
Qed.
End Scan.

Lemma in_sinputs (X : finZmodType) n' PP (pp : seq PP) (ys : seq (pop X n')) b bs k c p y b' :
  List.In (p, (y, b')) (zip pp (zip ys bs)) ->
  exists a : sinp X n' PP, [/\ List.In a (sinputs pp ys b bs k c), s_p a = p & s_x a = y].
Proof.
elim: pp ys b bs c => [|p' pp IH] [|y' ys] b [|b1 bs] c //= [[-> -> _]|h].
  by eexists; split; [left; reflexivity| |].
by have [a [ia e1 e2]] := IH ys b1 bs c.+1 h; exists a; split=> //; right.
Qed.

Section Kernels.
Variables (X : finZmodType) (n' : nat) (Q setting : Type).
Local Notation n := n'.+1.
Local Notation pop := (pop X n').
Variables (noise ld : setting -> X -> R) (scale : setting -> X -> X) (logH : setting -> pop -> X -> X -> R).
Variables (rs : resampler n) (mv : mover n) (L0 : X -> xnum) (Lt : X -> X -> Q -> xnum).
Variables (g0 : X -> option X) (gt : X -> X -> Q -> option X).
Hypotheses (noise_pos : forall s z, 0 < noise s z) (rs_good : good_resampler rs) (mv_proper : proper_mover mv).
Hypothesis two : (0 < n')%N.

Lemma al_sweep_later key b0 bs (y0 : pop) ys u0 us s0 ss qs backward a :
  List.In a (sinputs (zip (zip ss us) qs) ys b0 bs key 3) -> nanat (xal_G_t_tilde ld scale Lt gt) a ->
  0 < E (xal_sweep ld scale rs mv L0 Lt g0 gt key b0 bs y0 ys u0 us s0 ss qs backward) (fun o => (~~ isSome o)%:R : R).
Proof.
move=> ia na; rewrite /xal_sweep E_obind /xal_forward E_obind.
apply: (@gscan_later _ _ _ rs (xal_G_t_tilde ld scale Lt gt) rs_good); last by right; exists a.
- by rewrite ltr01.
- move=> c outs dd; cbn [E]; rewrite E_obind.
  move: dd; rewrite /dead -(last_fst _ y0).
  case: backward; rewrite /xbackward_sampling_pass /xbackward_scanning_pass; case: (xlast_gen _) => lT xT /= dd;
    by rewrite E_obind E_on_weights dd ltr01.
Qed.

Lemma l_sweep_later key b0 bs (y0 : pop) ys s0 ss qs backward a :
  List.In a (sinputs (zip ss qs) ys b0 bs key 3) -> nanat (xl_Gamma_t_tilde scale logH Lt gt) a ->
  0 < E (xl_sweep scale logH rs mv L0 Lt g0 gt key b0 bs y0 ys s0 ss qs backward) (fun o => (~~ isSome o)%:R : R).
Proof.
move=> ia na; rewrite /xl_sweep E_obind /xl_forward E_obind.
apply: (@gscan_later _ _ _ rs (xl_Gamma_t_tilde scale logH Lt gt) rs_good); last by right; exists a.
- by rewrite ltr01.
- move=> c outs dd; cbn [E]; rewrite E_obind.
  move: dd; rewrite /dead -(last_fst _ y0).
  case: backward; rewrite /xbackward_sampling_pass /xbackward_scanning_pass; case: (xlast_gen _) => lT xT /= dd;
    by rewrite E_obind E_on_weights dd ltr01.
Qed.

Lemma xgrad_aux_size2 xm xs (ss : seq setting) qs es us : size xs = size qs -> size ss = size qs -> size es = size qs ->
  xgrad_aux scale gt xm xs ss qs es = Some us -> size us = size qs.
Proof.
elim: qs xm xs ss es us => [|q qs IH] xm [|x xs] [|s ss] [|e es] us //=; first by move=> _ _ _ [<-].
move=> [s1] [s2] [s3]; case: (gt xm x q) => // g; case h: (xgrad_aux _ _ _ _ _ _ _) => [us'|] //= [<-].
by rewrite /= (IH _ _ _ _ _ s1 s2 s3 h).
Qed.

Lemma xal_aux_size x0 xs s0 (ss : seq setting) qs e0 es u0 us : size xs = size qs -> size ss = size qs -> size es = size qs ->
  xal_aux scale g0 gt x0 xs s0 ss qs e0 es = Some (u0, us) -> size us = size qs.
Proof.
move=> s1 s2 s3; rewrite /xal_aux; case: (g0 x0) => // g; case h: (xgrad_aux _ _ _ _ _ _ _) => [us'|] // [_ <-].
exact: xgrad_aux_size2 h.
Qed.

Definition at_y (y : X) (us : seq X) : seq pop := [seq [ffun=> y - u] | u <- us].

Lemma pops_y y us bs xs (qs : seq Q) (ss : seq setting) q : size us = size qs -> size bs = size qs -> size xs = size qs -> size ss = size qs ->
  List.In q qs ->
  exists (s : setting) (u : X) (b : 'I_n) (z : pop) (i : 'I_n), [/\ List.In ((s, u, q), (z, b)) (zip (zip (zip ss us) qs) (zip (mk_pops us (at_y y us) bs xs) bs)),
    List.In ((s, q), (z, b)) (zip (zip ss qs) (zip (mk_pops us (at_y y us) bs xs) bs)) & z i = y].
Proof.
elim: qs us bs xs ss => [|q' qs IH] [|u us] [|b bs] [|x xs] [|s ss] //= [s1] [s2] [s3] [s4] [->|h].
- have [i ib] := other two b.
  exists s, u, b, (mk_pop u [ffun=> y - u] b x), i; split; [by left|by left|].
  by rewrite /mk_pop /upd !ffunE (negbTE ib) ?ffunE [u + _]addrC subrK.
- have [s' [u' [b' [z [i [h1 h2 e]]]]]] := IH us bs xs ss s1 s2 s3 s4 h.
  by exists s', u', b', z, i; split=> //; right.
Qed.

Lemma noise_later key s0 (ss : seq setting) (qs : seq Q) (f : X * seq X -> R) : size ss = size qs ->
  (forall r, size r.2 = size qs -> 0 < f r) -> 0 < E (normals key (noise s0) [seq noise s | s <- ss]) f.
Proof.
move=> sz fp; rewrite -sz in fp.
exact: (normals_pos (noise_pos s0) noise_pos) fp.
Qed.

Theorem al_later key x0 xs b0 bs s0 ss qs backward y q :
  size xs = size qs -> size bs = size qs -> size ss = size qs -> List.In q qs -> (forall x, gt x y q = None) ->
  0 < Pr (xal_kernel noise ld scale rs mv L0 Lt g0 gt key x0 xs b0 bs s0 ss qs backward) (fun o => ~~ isSome o).
Proof.
move=> s1 s2 s3 iq gy; rewrite /Pr /xal_kernel E_bind; apply: (noise_later _ _ s3) => -[e0 es] se; rewrite [(e0, es).2]/= in se.
case ea: (xal_aux _ _ _ _ _ _ _ _ _ _) => [[u0 us]|]; last by rewrite /= ltr01.
have su := xal_aux_size s1 s3 se ea.
rewrite E_bind E_normals; have ip nu : List.In nu [seq iid (noise s) | s <- ss] -> forall z : pop, 0 < nu z.
  by move=> /List.in_map_iff [s [<- _]] z; exact: (iid_pos (n' := n') noise_pos).
apply: (sum_pos_one (i := [ffun=> 0] : pop)) => [p|].
  apply: mulr_ge0; first exact: ltW (iid_pos noise_pos _ _).
  by apply: lsum_ge0 => // ps; apply: al_sweep_ge0 => // o; exact: ler0n.
apply: mulr_gt0; first exact: (iid_pos (n' := n') noise_pos).
apply: (lsum_pos_at (zs := at_y y us)) => // [ps||].
- by apply: al_sweep_ge0 => // o; exact: ler0n.
- by rewrite !size_map su s3.
have [s [u [b [z [i [h _ zi]]]]]] := pops_y y su s2 s1 s3 iq.
have [a [ia pa xa]] := in_sinputs b0 key 3 h.
apply: al_sweep_later ia _; exists i => xm.
by rewrite /xal_G_t_tilde pa xa zi /= gy; case: (Lt _ _ _).
Qed.

Theorem l_later key x0 xs b0 bs s0 ss qs backward y q :
  size xs = size qs -> size bs = size qs -> size ss = size qs -> List.In q qs -> (forall x, gt x y q = None) ->
  0 < Pr (xl_kernel noise scale logH rs mv L0 Lt g0 gt key x0 xs b0 bs s0 ss qs backward) (fun o => ~~ isSome o).
Proof.
move=> s1 s2 s3 iq gy; rewrite /Pr /xl_kernel E_bind; apply: (noise_later _ _ s3) => -[e0 es] se; rewrite [(e0, es).2]/= in se.
case ea: (xal_aux _ _ _ _ _ _ _ _ _ _) => [[u0 us]|]; last by rewrite /= ltr01.
have su := xal_aux_size s1 s3 se ea.
rewrite E_bind E_normals; have ip nu : List.In nu [seq iid (noise s) | s <- ss] -> forall z : pop, 0 < nu z.
  by move=> /List.in_map_iff [s [<- _]] z; exact: (iid_pos (n' := n') noise_pos).
apply: (sum_pos_one (i := [ffun=> 0] : pop)) => [p|].
  apply: mulr_ge0; first exact: ltW (iid_pos noise_pos _ _).
  by apply: lsum_ge0 => // ps; apply: l_sweep_ge0 => // o; exact: ler0n.
apply: mulr_gt0; first exact: (iid_pos (n' := n') noise_pos).
apply: (lsum_pos_at (zs := at_y y us)) => // [ps||].
- by apply: l_sweep_ge0 => // o; exact: ler0n.
- by rewrite !size_map su s3.
have [s [u [b [z [i [_ h zi]]]]]] := pops_y y su s2 s1 s3 iq.
have [a [ia pa xa]] := in_sinputs b0 key 3 h.
apply: l_sweep_later ia _; exists i => xm.
by rewrite /xl_Gamma_t_tilde pa xa zi /= /xl_H_phi gy; case: (Lt _ _ _).
Qed.
End Kernels.
