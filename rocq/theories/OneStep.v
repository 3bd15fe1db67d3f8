(** * OneStep: the particle kernels with a single time step against the kernels of mala.py, tp.py and imh.py. *)
From Coq Require Import Reals FunctionalExtensionality.
From mathcomp Require Import all_ssreflect all_algebra.
From Verif Require Import RInst Prog ProgTheory Resampling Spec ResamplingProofs MoveProofs Csmc CsmcInvariance.
From Verif Require Import SmcTheory CsmcSpecs SweepTheory AuxCsmc AuxProofs TpCsmc TpProofs Single SingleSpec SingleProofs.
From Verif Require Import ErgodicSpec ShiftTheory ErgodicCsmc.

Set Implicit Arguments.
Unset Strict Implicit.
Unset Printing Implicit Defensive.
Import GRing.Theory Num.Theory Order.TTheory.
Local Open Scope ring_scope.

(** ** The reference at index [b] against the reference in front *)
Section Front.
Variables (X : finType) (n' : nat) (mv : mover n'.+1).
Local Notation n := n'.+1.
Local Notation pop := {ffun 'I_n -> X}.
Hypothesis mvR : rotates_move (index_of mv).

Lemma sum_head (x : X) (F : pop -> R) : \sum_(z : pop | z ord0 == x) F z = \sum_(y : {ffun 'I_n' -> X}) F (front x y).
Proof.
rewrite big_mkcond -(sum_front (fun z : pop => if z ord0 == x then F z else 0)) (bigD1 x) //= [X in _ + X]big1 ?addr0 => [|x' nx].
  by apply: eq_bigr => y _; rewrite front0 eqxx.
by apply: big1 => y _; rewrite front0 (negbTE nx).
Qed.

Lemma sum_ref (nu : X -> R) (b : 'I_n) (x : X) (F : pop -> R) : \sum_y nu y = 1 ->
  \sum_(z : pop) (\prod_i nu (z i)) * F (upd z b x)
  = \sum_(y : {ffun 'I_n' -> X}) (\prod_j nu (y j)) * F (moved b (front x y)).
Proof.
move=> nu1; rewrite (@sum_upd _ _ (fun _ => nu)) // big_mkcond (sum_moved_pop b) -big_mkcond /=.
transitivity (\sum_(z : pop | z ord0 == x) (\prod_(j | j != ord0) nu (z j)) * F (moved b z)); last first.
  by rewrite sum_head; apply: eq_bigr => y _; rewrite prod_front.
apply: eq_big => [z|z _]; first by rewrite ffunE subrr.
congr (_ * _); rewrite [LHS](reindex_inj (addIr b)) /=; apply: eq_big => [i|i _].
  by rewrite -[in RHS](inj_eq (addIr b)) add0r.
by rewrite ffunE addrK.
Qed.

(** Selecting from the reference at [b]: the same as selecting from the front. *)
Lemma select_ref key key' b (W W' : pop -> 'I_n -> R) (z : pop) (F : X -> bool -> R) :
  (forall z, exists c, forall i, W (moved b z) i = W' z (i - b) + c) ->
  E (mv key (normalize (W (moved b z))) b) (fun r => F (moved b z r.1) (r.1 != b))
  = E (mv key' (normalize (W' z)) ord0) (fun r => F (z r.1) (r.1 != ord0)).
Proof.
move=> H; have -> : normalize (W (moved b z)) = moved_w b (normalize (W' z)).
  have [c Hc] := H z; rewrite -normalize_moved; apply: functional_extensionality => i.
  rewrite -[RHS](normalize_shift _ c); apply: eq_normalize => j; exact: Hc.
rewrite -[LHS](E_index_of mv key _ _ (fun i => F (moved b z i) (i != b))).
have := @mvR key key' (normalize (W' z)) b 0 (fun i => F (moved b z i) (i != b)) (normalize_prob _).
rewrite add0r => ->.
rewrite -[RHS](E_index_of mv key' _ _ (fun i => F (z i) (i != ord0))).
by apply: eq_E => i; rewrite ffunE addrK -[in X in F _ (~~ X)](inj_eq (addIr (- b))) addrK subrr.
Qed.

Lemma ref_front (nu : X -> R) key key' b x (W W' : pop -> 'I_n -> R) (F : X -> bool -> R) : \sum_y nu y = 1 ->
  (forall z, exists c, forall i, W (moved b z) i = W' z (i - b) + c) ->
  \sum_(z : pop) (\prod_i nu (z i)) * E (mv key (normalize (W (upd z b x))) b) (fun r => F (upd z b x r.1) (r.1 != b))
  = \sum_(y : {ffun 'I_n' -> X}) (\prod_j nu (y j)) *
      E (mv key' (normalize (W' (front x y))) ord0) (fun r => F (front x y r.1) (r.1 != ord0)).
Proof.
move=> nu1 H.
rewrite (sum_ref b x (fun z => E (mv key (normalize (W z)) b) (fun r => F (z r.1) (r.1 != b)))) //.
by apply: eq_bigr => y _; rewrite (select_ref key key' (front x y) F H).
Qed.
End Front.

(** ** The single-state kernels, with the flag *)
Section Single.
Variables (X : finZmodType) (N : nat).
Local Notation pop := {ffun 'I_N.+1 -> X}.
Variables (log_pdf : X -> R) (grad : X -> X) (noise ld : X -> R) (scale : X -> X) (log_H : pop -> X -> X -> R).
Variables (mv : mover N.+1) (corr : X -> X -> X -> R) (ps : key -> X -> prog {ffun 'I_N -> X}) (post : X -> X -> R).
Hypothesis psS : forall key u, samples_indep (ps key u) (fun _ => post u).

Lemma mala_flag key aux x (F : X -> bool -> R) :
  E (mala_kernel log_pdf grad noise ld scale log_H mv key aux (tp1_init log_pdf grad x)) (fun r => F r.1.1.1 r.2)
  = \sum_e noise e * \sum_(y : {ffun 'I_N -> X}) (\prod_j noise (y j - (x + scale (grad x) + e))) *
      E (mv (split key 1) (normalize (mW log_pdf grad ld scale log_H aux (x + scale (grad x) + e) (front x y))) ord0)
        (fun r => F (front x y r.1) (r.1 != ord0)).
Proof.
rewrite /mala_kernel /mala_run E_bind E_draw; apply: eq_bigr => e _; congr (_ * _).
rewrite [tp1_init _ _ _]/tp1_init; cbv beta iota zeta; rewrite [(_, _, _).1.1]/= [(_, _, _).2]/= [(_, _, _).1.2]/=.
move: (x + _ + e) => u; rewrite E_bind E_draw.
rewrite -(sum_eps noise u (fun y => E (mv (split key 1) (normalize (mW log_pdf grad ld scale log_H aux u (front x y))) ord0)
  (fun r => F (front x y r.1) (r.1 != ord0)))).
apply: eq_bigr => eps _; congr (_ * _); rewrite E_select.
have eF : [ffun i => insert0 x (fun j => u + eps j) i] = front x [ffun j => u + eps j].
  by apply/ffunP => i; rewrite !ffunE /insert0; case: unlift => [j|] //; rewrite ffunE.
rewrite eF; congr (E (mv _ (normalize _) _) _).
apply: functional_extensionality => i; rewrite /mala_log_weights /mW.
have e1 : insert0 (log_pdf x) (fun j => log_pdf (u + eps j)) i = log_pdf (front x [ffun j => u + eps j] i).
  by rewrite !ffunE /insert0; case: unlift => [j|] //; rewrite ffunE.
have e2 : [ffun i => insert0 (grad x) (fun j => grad (u + eps j)) i] i = grad (front x [ffun j => u + eps j] i).
  by rewrite !ffunE /insert0; case: unlift => [j|] //; rewrite ffunE.
by case: (aux); rewrite e1 e2.
Qed.

Lemma tp1_flag key x (F : X -> bool -> R) :
  E (tp1_kernel log_pdf grad noise scale mv corr ps key (tp1_init log_pdf grad x)) (fun r => F r.1.1.1 r.2)
  = \sum_e noise e * \sum_(y : {ffun 'I_N -> X}) (\prod_j post (x + scale (grad x) + e) (y j)) *
      E (mv (split key 1) (normalize (tW log_pdf grad corr (x + scale (grad x) + e) (front x y))) ord0)
        (fun r => F (front x y r.1) (r.1 != ord0)).
Proof.
rewrite /tp1_kernel /tp1_run E_bind E_draw; apply: eq_bigr => e _; congr (_ * _).
rewrite [tp1_init _ _ _]/tp1_init; cbv beta iota zeta; rewrite [(_, _, _).1.1]/= [(_, _, _).2]/= [(_, _, _).1.2]/=.
move: (x + _ + e) => u; have [_ _ psE] := psS (split key 0) u.
rewrite E_bind psE; apply: eq_bigr => y _; congr (_ * _); rewrite E_select.
congr (E (mv _ (normalize _) _) _).
apply: functional_extensionality => i; rewrite /tW; congr (_ + corr _ _ _).
  by rewrite (insert0_map log_pdf).
by rewrite ffunE (insert0_map grad).
Qed.
End Single.

Lemma imh_flag (X : finType) N (log_pdf : X -> R) ps (mv : mover N.+1) (prior : X -> R) key x (F : X -> bool -> R) :
  (forall key, samples_indep (ps key) (fun _ => prior)) ->
  E (imh_kernel log_pdf ps mv key (imh_init log_pdf x)) (fun r => F r.1.1 r.2)
  = \sum_(y : {ffun 'I_N -> X}) (\prod_j prior (y j)) *
      E (mv (split key 1) (normalize (fun i => log_pdf (front x y i))) ord0) (fun r => F (front x y r.1) (r.1 != ord0)).
Proof.
move=> psS; have [_ _ psE] := psS (split key 0).
rewrite /imh_kernel E_bind psE /imh_init; apply: eq_bigr => y _; congr (_ * _).
rewrite E_select; congr (E (mv _ (normalize _) _) _).
by apply: functional_extensionality => i; rewrite (insert0_map log_pdf).
Qed.

(** ** The particle kernels with T = 1 *)
Section Kernels.
Variables (X : finZmodType) (n' : nat) (Q setting : Type).
Local Notation n := n'.+1.
Local Notation pop := {ffun 'I_n -> X}.
Variables (noise ld : setting -> X -> R) (scale : setting -> X -> X) (logH : setting -> pop -> X -> X -> R).
Variables (rs : resampler n) (mv : mover n) (G0 : X -> R) (Gt : X -> X -> Q -> R) (g0 : X -> X) (gt : X -> X -> Q -> X).
Hypothesis mvR : rotates_move (index_of mv).
Hypothesis noiseP : forall s, prob_vec (noise s).
Variables (f : seq X -> bool -> R).

Lemma E_backward1 (QQ : Type) (Gam : X -> X -> QQ -> R) key b qq backward (lw : 'I_n -> R) (z : pop) :
  exists key', E (aux_backward mv Gam key b qq backward (lw, z, [::])) (fun r => f r.1.1 (r.1.2 != [:: b]))
  = E (mv key' (normalize lw) b) (fun r => f [:: z r.1] (r.1 != b)).
Proof.
have eqh (B : 'I_n) : ([:: B] != [:: b]) = (B != b) by rewrite eqseq_cons andbT.
exists (if backward then split (split key 2) 0 else split key 2).
rewrite /aux_backward E_bind; case: backward.
  by rewrite /backward_sampling_pass /= E_bind; apply: eq_E => -[B al] /=; rewrite eqh.
by rewrite /backward_scanning_pass /= E_bind; apply: eq_E => -[B al] /=; rewrite eqh.
Qed.

Lemma normalize_minus_max (lw : 'I_n -> R) : normalize (minus_max lw) = normalize lw.
Proof. by apply: functional_extensionality => i; rewrite /minus_max (normalize_shift lw (- amax lw)). Qed.

(** A sweep over one generation, its particles drawn around [u]. *)
Lemma E_sweep1 s0 (W0 : pop -> 'I_n -> R) (PP QQ : Type) (Wt : pop -> pop -> PP -> 'I_n -> R) post wof
    (Gam : X -> X -> QQ -> R) key k2 key' u b x pp qq backward (W' : pop -> 'I_n -> R) :
  (forall z, exists c, forall i, W0 (moved b z) i = W' z (i - b) + c) ->
  E (do (p0, ps) <- normals k2 (iid (noise s0)) [::];
     do o <- aux_forward rs W0 Wt post wof key b [::] (mk_pop u p0 b x) (mk_pops [::] ps [::] [::]) pp;
     aux_backward mv Gam key (last b [::]) qq backward o) (fun r => f r.1.1 (r.1.2 != [:: b]))
  = \sum_(y : {ffun 'I_n' -> X}) (\prod_j noise s0 (y j - u)) *
      E (mv key' (normalize (W' (front x y))) ord0) (fun r => f [:: front x y r.1] (r.1 != ord0)).
Proof.
move=> H; rewrite E_bind E_normals /lsum.
have nu1 : \sum_y noise s0 (y - u) = 1 by exact: (proj2 (shift_vec u (noiseP s0))).
rewrite -(ref_front mvR key key' x (fun y fl => f [:: y] fl) nu1 H).
rewrite -(sum_iid_shift (noise s0) u (fun z => E (mv key (normalize (W0 (upd z b x))) b) (fun r => f [:: upd z b x r.1] (r.1 != b)))).
apply: eq_bigr => p _; congr (_ * _); rewrite E_bind /aux_forward.
have -> : sinputs pp (mk_pops [::] [::] [::] [::]) b [::] key 3 = [::] :> seq (sinp X n' PP) by case: (pp).
rewrite E_bind [scan _ _ _]/=; rewrite -[LHS]/(E (aux_backward _ _ _ _ _ _ _) _).
have [k ->] := E_backward1 Gam key b qq backward (minus_max (W0 (mk_pop u p b x))) (mk_pop u p b x).
rewrite normalize_minus_max; set z := mk_pop u p b x.
have ez : upd [ffun i => u + p i] b x = z by [].
rewrite ez -(E_index_of mv k _ _ (fun i => f [:: z i] (i != b))) -(E_index_of mv key _ _ (fun i => f [:: z i] (i != b))).
have e0 (w : 'I_n -> R) : moved_w 0 w = w by apply: functional_extensionality => l; rewrite /moved_w subr0.
by rewrite -{1}[normalize _]e0 -{1}[b]addr0 (@mvR k key) ?normalize_prob //; [apply: eq_E => l; rewrite addr0|exact: normalize_prob].
Qed.

Lemma al_one_step key key' b x s0 backward log_H : (forall s z, ld s (- z) = ld s z) ->
  E (al_kernel noise ld scale rs mv G0 Gt g0 gt key x [::] b [::] s0 [::] [::] backward)
    (fun r => f r.1.1 (r.1.2 != [:: b]))
  = E (mala_kernel G0 g0 (noise s0) (ld s0) (scale s0) log_H mv key' true (tp1_init G0 g0 x))
      (fun r => f [:: r.1.1.1] r.2).
Proof.
move=> ldN; rewrite (mala_flag _ _ _ _ _ _ _ _ _ _ (fun y fl => f [:: y] fl)).
rewrite /al_kernel E_bind /al_forward E_bind E_normals /lsum; apply: eq_bigr => e _; congr (_ * _).
move: (x + _ + e) => u.
rewrite -(@E_sweep1 s0 (al_G_0_tilde ld scale G0 g0 s0 u) _ _ (al_G_t_tilde ld scale Gt gt) (@minus_max n') (@normalize n)
  (al_Gamma_t_tilde ld scale Gt gt) key (split key 0) (split key' 1) u b x [::] [::] backward); last first.
  move=> z; exists 0 => i; rewrite addr0 /al_G_0_tilde /al_Gamma_0_tilde /mW ffunE.
  by rewrite -(ldN s0 (u - _)) opprB.
rewrite !E_bind; apply: eq_E => -[p0 ps] /=; rewrite !E_bind; apply: eq_E => -[c o] /=.
by [].
Qed.

Lemma l_one_step key key' b x s0 backward log_H :
  (forall s z a phi y, logH s (moved a z) phi y = logH s z phi y) ->
  (forall z, exists c, forall i phi, logH s0 z phi (z i) = log_H z (z i) phi + c) ->
  E (l_kernel noise scale logH rs mv G0 Gt g0 gt key x [::] b [::] s0 [::] [::] backward)
    (fun r => f r.1.1 (r.1.2 != [:: b]))
  = E (mala_kernel G0 g0 (noise s0) (ld s0) (scale s0) log_H mv key' false (tp1_init G0 g0 x))
      (fun r => f [:: r.1.1.1] r.2).
Proof.
move=> rotH eH; rewrite (mala_flag _ _ _ _ _ _ _ _ _ _ (fun y fl => f [:: y] fl)).
rewrite /l_kernel E_bind /l_forward E_bind E_normals /lsum; apply: eq_bigr => e _; congr (_ * _).
move: (x + _ + e) => u.
rewrite -(@E_sweep1 s0 (l_Gamma_0_tilde scale logH G0 g0 s0) _ _ (l_Gamma_t_tilde scale logH Gt gt) (@minus_max n') (@normalize n)
  Gt key (split key 0) (split key' 1) u b x [::] [::] backward); last first.
  move=> z; have [c Hc] := eH z; exists c => i; rewrite /l_Gamma_0_tilde /mW ffunE rotH Hc.
  by rewrite -addrA.
rewrite !E_bind; apply: eq_E => -[p0 ps] /=; rewrite !E_bind; apply: eq_E => -[c o] /=.
by [].
Qed.
End Kernels.

(** ** csmc.kernel with T = 1 *)
Section Csmc.
Variables (X : finType) (n' : nat) (P Q : Type) (md : model X n' P Q) (rs : resampler n'.+1) (mv : mover n'.+1).
Local Notation n := n'.+1.
Hypothesis mvR : rotates_move (index_of mv).
Variables (mu0 : X -> R) (f : seq X -> bool -> R).

Lemma E_csmc1 key key' b x backward (W' : {ffun 'I_n -> X} -> 'I_n -> R) :
  samples_indep (M0_rvs md (split key 0)) (fun _ => mu0) ->
  (forall z : {ffun 'I_n -> X}, exists c, forall i,
     Gamma0 md (moved b z i) - M0_logpdf md (moved b z) i = W' z (i - b) + c) ->
  E (kernel rs mv md key x [::] b [::] [::] [::] backward true) (fun r => f r.1.1 (r.1.2 != [:: b]))
  = \sum_(y : {ffun 'I_n' -> X}) (\prod_j mu0 (y j)) *
      E (mv key' (normalize (W' (front x y))) ord0) (fun r => f [:: front x y r.1] (r.1 != ord0)).
Proof.
move=> [_ mP mE] H; rewrite -(@ref_front _ _ mv mvR mu0 key key' b x (fun z i => Gamma0 md (z i) - M0_logpdf md z i) W'
  (fun y fl => f [:: y] fl) (proj2 (mP ord0)) H).
rewrite /kernel E_bind /forward_pass E_bind mE; apply: eq_bigr => z0 _; congr (_ * _).
have eqh (B : 'I_n) : ([:: B] != [:: b]) = (B != b) by rewrite eqseq_cons andbT.
set z := upd z0 b x.
have mvk k : E (mv k (normalize (log_w0 md z)) b) (fun r => f [:: z r.1] (r.1 != b))
    = E (mv key (normalize (fun i => Gamma0 md (z i) - M0_logpdf md z i)) b) (fun r => f [:: z r.1] (r.1 != b)).
  rewrite (_ : normalize (log_w0 md z) = normalize (fun i => Gamma0 md (z i) - M0_logpdf md z i)); last first.
    by apply: functional_extensionality => i; rewrite /log_w0 normalize_normalize.
  rewrite -(E_index_of mv k _ _ (fun i => f [:: z i] (i != b))) -(E_index_of mv key _ _ (fun i => f [:: z i] (i != b))).
  have e0 (w : 'I_n -> R) : moved_w 0 w = w by apply: functional_extensionality => l; rewrite /moved_w subr0.
  by rewrite -{1}[normalize _]e0 -{1}[b]addr0 (@mvR k key) ?normalize_prob //; [apply: eq_E => l; rewrite addr0|exact: normalize_prob].
rewrite -[LHS]/(E (do (xs, Bs) <- (if backward then _ else _); Ret (xs, Bs, _)) _) E_bind; case: backward.
  by rewrite /backward_sampling_pass /= E_bind -(mvk (split (split key 2) 0)); apply: eq_E => -[B al] /=; rewrite eqh.
by rewrite /backward_scanning_pass /= E_bind -(mvk (split key 2)); apply: eq_E => -[B al] /=; rewrite eqh.
Qed.

Lemma csmc_one_step key key' b x backward (log_pdf : X -> R) ps :
  (forall key, samples_indep (M0_rvs md key) (fun _ => mu0)) -> (forall key, samples_indep (ps key) (fun _ => mu0)) ->
  (forall z : {ffun 'I_n -> X}, exists c, forall i, Gamma0 md (z i) - M0_logpdf md z i = log_pdf (z i) + c) ->
  E (kernel rs mv md key x [::] b [::] [::] [::] backward true) (fun r => f r.1.1 (r.1.2 != [:: b]))
  = E (imh_kernel log_pdf ps mv key' (imh_init log_pdf x)) (fun r => f [:: r.1.1] r.2).
Proof.
move=> mS pS H; rewrite (@imh_flag _ _ _ _ _ mu0 _ _ (fun y fl => f [:: y] fl)) //.
apply: (@E_csmc1 key (split key' 1) b x backward (fun z i => log_pdf (z i))) => // z.
have [c Hc] := H (moved b z); exists c => i; by rewrite Hc ffunE.
Qed.
End Csmc.

(** ** atp_csmc_f with T = 1 *)
Section Atp.
Variables (X : finZmodType) (n' : nat) (Q : Type).
Local Notation n := n'.+1.
Variables (noise0 ld0 : X -> R) (noise ld : Q -> X -> R) (scale0 : X -> X) (scale : Q -> X -> X).
Variables (pnoise0 pld0 : X -> R) (pnoise pld : Q -> X -> R) (mean0 : X -> X) (mean : Q -> X -> X -> X).
Variables (prior0 : X -> R) (prior : X -> X -> Q -> R).
Variables (r0 : X -> R) (rt : X -> X -> Q -> R) (g0 : X -> X) (gt : X -> X -> Q -> X).
Variables (rs : resampler n) (mv : mover n).
Hypothesis mvR : rotates_move (index_of mv).
Variables (f : seq X -> bool -> R) (corr : X -> X -> X -> R) (ps : key -> X -> prog {ffun 'I_n' -> X}).

Lemma atp_one_step key key' b x backward :
  prob_vec pnoise0 ->
  (forall key u, samples_indep (ps key u) (fun _ y => pnoise0 (y - mean0 u))) ->
  (forall u x g, corr u x g = ld0 (u - x - scale0 g) - ld0 (u - x)) ->
  (forall u, exists c, forall x, prior0 x + ld0 (u - x) = pld0 (x - mean0 u) + c) ->
  E (atp_kernel noise0 ld0 noise ld scale0 scale pnoise0 pld0 pnoise pld mean0 mean prior0 prior r0 rt g0 gt rs mv
       key x [::] b [::] [::] backward) (fun r => f r.1.1 (r.1.2 != [:: b]))
  = E (tp1_kernel r0 g0 noise0 scale0 mv corr ps key' (tp1_init r0 g0 x)) (fun r => f [:: r.1.1.1] r.2).
Proof.
move=> pP pS eC eP.
rewrite (@tp1_flag _ _ _ _ _ _ _ _ _ (fun u y => pnoise0 (y - mean0 u)) _ _ _ (fun y fl => f [:: y] fl)) //.
rewrite /atp_kernel E_bind E_normals /lsum; apply: eq_bigr => e _; congr (_ * _).
move: (x + _ + e) => u.
apply: (@E_csmc1 _ _ _ _ _ rs mv mvR (fun y => pnoise0 (y - mean0 u)) f (split key 0) (split key' 1) b x backward (tW r0 g0 corr u)) => [|z].
  split; first by apply: proper_bind => //; apply: proper_draw; exact: iid_prob.
    by move=> _; exact: shift_vec.
  by move=> F; rewrite -(sum_iid_shift pnoise0 (mean0 u) F).
have [c Hc] := eP u; exists c => i.
rewrite /= /atp_Gamma_0 /atp_M0_logpdf /tW ffunE eC.
have := Hc (z (i - b)); move: (ld0 (_ - scale0 _)) (ld0 (u - _)) (pld0 _) (prior0 _) (r0 _) => a1 a2 a3 a4 a5 h.
have -> : a4 = a3 + c - a2 by rewrite -h addrK.
Rring.
Qed.
End Atp.

(** ** Laws that meet the hypotheses *)
Section Laws.
Variables (X : finZmodType) (N : nat) (ld : X -> R).
Definition ex_noise (z : X) : R := exp (ld z) / \sum_z exp (ld z).
Definition ex_sampler (key : key) (u : X) : prog {ffun 'I_N -> X} := draw key (fun y : {ffun 'I_N -> X} => \prod_j ex_noise (y j - u)).

Lemma ex_noise_prob : prob_vec ex_noise.
Proof.
have s0 : 0 < \sum_(z : X) exp (ld z) by rewrite (bigD1 0) //= ltr_paddr ?expR_gt0 //; apply: sumr_ge0 => z _; exact/ltW/expR_gt0.
by split=> [z|]; [rewrite divr_ge0 // ltW // expR_gt0|rewrite /ex_noise -mulr_suml divff // gt_eqF].
Qed.

Lemma ex_one_step_laws : (forall z, ld (- z) = ld z) ->
  [/\ prob_vec ex_noise, forall key u, samples_indep (ex_sampler key u) (fun _ y => ex_noise (y - u))
    & forall u, exists c, forall x, 0 + ld (u - x) = ld (x - u) + c].
Proof.
move=> ldN; have pS u := shift_vec u ex_noise_prob; split; first exact: ex_noise_prob.
  move=> key u; split=> [|_|f]; [|exact: pS|exact: E_draw].
  by apply: proper_draw; apply: (@prod_prob _ _ (fun _ y => ex_noise (y - u))) => i; exact: pS.
by move=> u; exists 0 => x; rewrite add0r addr0 -opprB ldN.
Qed.
End Laws.
