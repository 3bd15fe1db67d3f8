(** * DensityFinal: the forms of the density theorems stated in PropsDensity. *)
From Coq Require Import Reals FunctionalExtensionality Lra.
From mathcomp Require Import all_ssreflect all_algebra.
From Verif Require Import RInst Prog ProgTheory Resampling Spec ResamplingProofs.
From Verif Require Import KillingProofs MoveProofs ResamplingSpecs Csmc SmcTheory BackwardProofs.
From Verif Require Import CsmcInvariance CsmcProofs FrozenTheory DensitySpec DensityModel DensityProofs AuxCsmc DensityAux DensityInst.
From Verif Require Import Gauss GaussSpec GaussProofs MarginalProofs MarginalFinal AuxFinal.

Set Implicit Arguments.
Unset Strict Implicit.
Unset Printing Implicit Defensive.
Import GRing.Theory Num.Theory Order.TTheory.
Local Open Scope ring_scope.

(** ** Independent proposals *)
Section Independent.
Variables (X : Type) (n' : nat) (P Q : Type) (md : model X n' P Q).
Local Notation n := n'.+1.

Lemma independent_alike0 :
  alike0 md (fun b y => \prod_(i | i != b) exp (M0_logpdf md y i)).
Proof.
move=> y b b'; split; first by apply: prodr_ge0 => i _; exact/ltW/expR_gt0.
by rewrite mulrC [RHS]mulrC; rewrite -(bigD1 b (P := xpredT) (F := fun i => exp (M0_logpdf md y i))) //= -(bigD1 b' (P := xpredT) (F := fun i => exp (M0_logpdf md y i))).
Qed.

Lemma independent_aliket ps :
  aliket md (fun p xm b y => \prod_(i | i != b) exp (Mt_logpdf md xm y p i)) ps.
Proof.
move=> p _ xm y b b'; split; first by apply: prodr_ge0 => i _; exact/ltW/expR_gt0.
by rewrite mulrC [RHS]mulrC; rewrite -(bigD1 b (P := xpredT) (F := fun i => exp (Mt_logpdf md xm y p i))) //= -(bigD1 b' (P := xpredT) (F := fun i => exp (Mt_logpdf md xm y p i))).
Qed.

Lemma csmc_nearly (rs : resampler n) (key : key) (ps : seq P) qs (y0 : pop X n') (ys : seq (pop X n')) (f : seq X -> seq 'I_n -> R) c D0 Dt :
  alike0 md D0 -> aliket md Dt ps -> good_resampler rs ->
  (forall xs bs, `|f xs bs| <= c) -> size ps = size qs -> size ys = size qs ->
  let joint g := idx_sum (size qs) (fun b0 bs => path_target (Gamma0 md) (Gammat md) qs (y0 b0) (pick ys bs) *
      E (forward_pass rs (observed_model md D0 Dt b0 y0) key (y0 b0) (pick ys bs) b0 bs (obs_params ps bs ys) qs true)
        (fun=> g (y0 b0 :: pick ys bs) (b0 :: bs))) in
  `| idx_sum (size qs) (fun b0 bs => path_target (Gamma0 md) (Gammat md) qs (y0 b0) (pick ys bs) *
       E (drop_weights (kernel rs (@force_move _) (observed_model md D0 Dt b0 y0) key (y0 b0) (pick ys bs) b0 bs
         (obs_params ps bs ys) qs false true)) (fun r => f r.1 r.2))
     - joint f | <= joint (fun _ _ => force_eps n'.+1 c).
Proof.
move=> a0 at_ gr fc s1 s2; apply: (@csmc_density_error X n' P Q md rs (@force_move _) D0 Dt a0 gr key ps qs y0 ys f c) => // *.
exact: force_bound.
Qed.

End Independent.

(** ** The kernels on finite groups are their draws of noise followed by the sweeps *)
Section Split.
Variables (X : finZmodType) (n' : nat) (Q setting : Type) (noise ld : setting -> X -> R).
Variables (scale : setting -> X -> X) (logH : setting -> {ffun 'I_n'.+1 -> X} -> X -> X -> R).
Variables (rs : resampler n'.+1) (mv : mover n'.+1) (G0 : X -> R) (Gt : X -> X -> Q -> R).
Variables (g0 : X -> X) (gt : X -> X -> Q -> X) (finite : X -> bool).
Variables (key : key) (x0 : X) (xs : seq X) (b0 : 'I_n'.+1) (bs : seq 'I_n'.+1).
Variables (s0 : setting) (ss : seq setting) (qs : seq Q) (backward : bool).

Definition aux_draws (x0' : X) (aux : seq X -> seq X) : prog (X * seq X * {ffun 'I_n'.+1 -> X} * seq {ffun 'I_n'.+1 -> X}) :=
  do (e0, es) <- normals (split key 1) (noise s0) [seq noise s | s <- ss];
  do (p0, ps) <- normals (split key 0) (iid (noise s0)) [seq iid (noise s) | s <- ss];
  Ret (x0' + e0, aux es, mk_pop (x0' + e0) p0 b0 x0, mk_pops (aux es) ps bs xs).

Lemma rw_split f :
  E (rw_kernel noise rs mv G0 Gt finite key x0 xs b0 bs s0 ss qs backward) f
  = E (do (u0, us, y0, ys) <- aux_draws x0 (rw_aux xs);
       do r <- rw_sweep G0 Gt rs mv key b0 bs y0 ys qs backward;
       Ret (rw_guard finite (x0 :: xs) (b0 :: bs) r)) f.
Proof.
rewrite /rw_kernel [LHS]E_bind /rw_forward [LHS]E_bind /aux_draws /rw_sweep [RHS]E_bind [RHS]E_bind.
apply: eq_E => -[e0 es]; cbv beta iota zeta; rewrite [LHS]E_bind [RHS]E_bind.
apply: eq_E => -[p0 ps]; cbv beta iota; rewrite [RHS]E_bind [RHS]E_bind; apply: eq_E => o; exact: E_bind.
Qed.

Lemma l_split f :
  E (l_kernel noise scale logH rs mv G0 Gt g0 gt key x0 xs b0 bs s0 ss qs backward) f
  = E (do (u0, us, y0, ys) <- aux_draws (x0 + scale s0 (g0 x0)) (grad_aux scale gt x0 xs ss qs);
       l_sweep scale logH G0 Gt g0 gt rs mv key b0 bs y0 ys s0 ss qs backward) f.
Proof.
rewrite /l_kernel [LHS]E_bind /l_forward [LHS]E_bind /aux_draws /l_sweep [RHS]E_bind [RHS]E_bind.
apply: eq_E => -[e0 es]; cbv beta iota zeta; rewrite [LHS]E_bind [RHS]E_bind.
apply: eq_E => -[p0 ps]; cbv beta iota; by rewrite [RHS]E_bind.
Qed.

Lemma al_split f :
  E (al_kernel noise ld scale rs mv G0 Gt g0 gt key x0 xs b0 bs s0 ss qs backward) f
  = E (do (u0, us, y0, ys) <- aux_draws (x0 + scale s0 (g0 x0)) (grad_aux scale gt x0 xs ss qs);
       al_sweep ld scale G0 Gt g0 gt rs mv key b0 bs y0 ys u0 us s0 ss qs backward) f.
Proof.
rewrite /al_kernel [LHS]E_bind /al_forward [LHS]E_bind /aux_draws /al_sweep [RHS]E_bind [RHS]E_bind.
apply: eq_E => -[e0 es]; cbv beta iota zeta; rewrite [LHS]E_bind [RHS]E_bind.
apply: eq_E => -[p0 ps]; cbv beta iota; by rewrite [LHS]E_bind [RHS]E_bind; apply: eq_E.
Qed.

End Split.

(** ** Gaussian noise on R^d *)
Section Gaussian.
Variables (d n' : nat) (Q : Type).
Local Notation vec := 'cV[R]_d.
Local Notation pop := {ffun 'I_n'.+1 -> vec}.

Lemma noise_even (s : R * R) (z : vec) :
  gauss_kernel (s.2 / 2%:R)%:M (- z) 0 = gauss_kernel (s.2 / 2%:R)%:M z 0.
Proof. by rewrite /gauss_kernel !subr0 /quad (raddfN (@trmx_additive _ d 1) z) mulNmx mulNmx mulmxN opprK. Qed.

Lemma noise_shift (e : R) (x m : vec) : gauss_kernel (e / 2%:R)%:M x m = gauss_kernel (e / 2%:R)%:M (x - m) 0.
Proof. by rewrite /gauss_kernel subr0. Qed.

Lemma noise_ld (s : R * R) (z : vec) : gauss_kernel (s.2 / 2%:R)%:M z 0 = sizes_ld s z.
Proof.
rewrite /gauss_kernel subr0 /quad invmx_scalar mul_mx_scalar -scalemxAl mxE /sizes_ld sqnE /dotv.
move: ((z^T *m z) 0 0) => q; case: s => _ e /=; have [->|] := eqVneq e 0.
  by rewrite !(mul0r, invr0, mulr0, oppr0).
by rewrite invf_div => /eqP; clear => e0; toR; field.
Qed.

Local Notation noise_log := (fun (s : R * R) (z : vec) => gauss_kernel (s.2 / 2%:R)%:M z 0).

Lemma given_ref_kernel (s : R * R) (y : pop) b phi u :
  given_ref (noise_log s) (y b + phi) u y b
  = gauss_kernel (s.2 / 2%:R)%:M u (y b + phi) + \sum_(i | i != b) gauss_kernel (s.2 / 2%:R)%:M (y i) u.
Proof. by rewrite /given_ref -noise_shift; congr (_ + _); apply: eq_bigr => i _; rewrite [RHS]noise_shift. Qed.

Lemma sizes_marg (I : (vec -> R) -> R) (s : R * R) (y : pop) : translation_invariant I -> 0 < s.2 ->
  exists c : R, forall b phi,
  I (fun u => exp (given_ref (noise_log s) (y b + phi) u y b)) = c * exp (sizes_H s y phi (y b)).
Proof.
move=> TI l0; have [c Hc] := l_marg y l0 TI; exists c => b phi; rewrite -(Hc (b, phi)).
by apply: (int_ext TI) => u; rewrite given_ref_kernel.
Qed.

End Gaussian.

Section Final.
Variables (d n' : nat) (Q : Type).
Local Notation vec := 'cV[R]_d.
Local Notation pop := {ffun 'I_n'.+1 -> vec}.
Local Notation noise_log := (fun (s : R * R) (z : vec) => gauss_kernel (s.2 / 2%:R)%:M z 0).
Variables (rs : resampler n'.+1) (mv : mover n'.+1) (G0 : vec -> R) (Gt : vec -> vec -> Q -> R).
Variables (g0 : vec -> vec) (gt : vec -> vec -> Q -> vec).
Variables (key : key) (u0 : vec) (us : seq vec) (s0 : R * R) (ss : seq (R * R)) (qs : seq Q).
Variables (y0 : pop) (ys : seq pop) (backward : bool).
Hypotheses (rs_good : good_resampler rs) (s4 : size qs = size ys).

Lemma rw_keeps : good_mover mv ->
  keeps_density y0 ys (fun b0 bs => path_target G0 Gt qs (y0 b0) (pick ys bs)
      * aux_density noise_log (fun _ _ => 0) (fun _ _ _ _ => 0) u0 us s0 ss qs y0 ys b0 bs)
    (fun b0 bs => drop_weights (rw_sweep G0 Gt rs mv key b0 bs y0 ys qs backward)).
Proof. by move=> gm f; apply: rw_density => // s z; exact: noise_even. Qed.

Lemma rw_nearly c :
  nearly_keeps_density y0 ys (fun b0 bs => path_target G0 Gt qs (y0 b0) (pick ys bs)
      * aux_density noise_log (fun _ _ => 0) (fun _ _ _ _ => 0) u0 us s0 ss qs y0 ys b0 bs)
    (fun b0 bs => drop_weights (rw_sweep G0 Gt rs (@force_move _) key b0 bs y0 ys qs backward)) c (force_eps n'.+1 c).
Proof.
move=> f fc; apply: (@rw_density_error _ _ _ _ _ _ _ _ _ _ _ _ _ _ _ _ _ _ _ _ _ f c) => //.
- by move=> s z; exact: noise_even.
- by move=> *; exact: force_bound.
Qed.

Hypothesis s3 : size ss = size ys.

Section Al.
Hypothesis s2 : size us = size ys.

Lemma al_keeps : good_mover mv ->
  keeps_density y0 ys (fun b0 bs => path_target G0 Gt qs (y0 b0) (pick ys bs)
      * aux_density noise_log (fun x s => sizes_step s (g0 x)) (fun x x' s q => sizes_step s (gt x x' q))
          u0 us s0 ss qs y0 ys b0 bs)
    (fun b0 bs => drop_weights (al_sweep (@sizes_ld d) (@sizes_step d) G0 Gt g0 gt rs mv key b0 bs y0 ys u0 us s0 ss qs backward)).
Proof. by move=> gm f; apply: al_density => // s; exists 0 => z; rewrite addr0 noise_ld. Qed.

Lemma al_nearly c :
  nearly_keeps_density y0 ys (fun b0 bs => path_target G0 Gt qs (y0 b0) (pick ys bs)
      * aux_density noise_log (fun x s => sizes_step s (g0 x)) (fun x x' s q => sizes_step s (gt x x' q))
          u0 us s0 ss qs y0 ys b0 bs)
    (fun b0 bs => drop_weights (al_sweep (@sizes_ld d) (@sizes_step d) G0 Gt g0 gt rs (@force_move _) key b0 bs y0 ys u0 us s0 ss qs backward))
    c (force_eps n'.+1 c).
Proof.
move=> f fc; apply: (@al_density_error _ _ _ _ _ _ _ _ _ _ _ _ _ _ _ _ _ _ _ _ _ _ _ _ _ _ _ f c) => //.
- by move=> s; exists 0 => z; rewrite addr0 noise_ld.
- by move=> *; exact: force_bound.
Qed.
End Al.

Section L.
Variable I : (vec -> R) -> R.
Hypotheses (TI : translation_invariant I) (l0 : forall s, List.In s (s0 :: ss) -> 0 < s.2).
Hypothesis bwd : backward -> forall x y x' q, gt x x' q = gt y x' q.

Lemma l_keeps : good_mover mv ->
  keeps_density y0 ys (fun b0 bs => path_target G0 Gt qs (y0 b0) (pick ys bs)
      * marg_density noise_log (fun x s => sizes_step s (g0 x)) (fun x x' s q => sizes_step s (gt x x' q)) I
          s0 ss qs y0 ys b0 bs)
    (fun b0 bs => drop_weights (l_sweep (@sizes_step d) (@sizes_H d n') G0 Gt g0 gt rs mv key b0 bs y0 ys s0 ss qs backward)).
Proof.
by move=> gm f; apply: (@l_density _ _ _ _ _ _ _ _ _ _ _ _ rs_good _ I (fun s => 0 < s.2)) => // s y p; apply: sizes_marg.
Qed.

Lemma l_nearly c : (forall g, (forall u, 0 <= g u) -> 0 <= I g) ->
  nearly_keeps_density y0 ys (fun b0 bs => path_target G0 Gt qs (y0 b0) (pick ys bs)
      * marg_density noise_log (fun x s => sizes_step s (g0 x)) (fun x x' s q => sizes_step s (gt x x' q)) I
          s0 ss qs y0 ys b0 bs)
    (fun b0 bs => drop_weights (l_sweep (@sizes_step d) (@sizes_H d n') G0 Gt g0 gt rs (@force_move _) key b0 bs y0 ys s0 ss qs backward))
    c (force_eps n'.+1 c).
Proof.
move=> I0 f fc; apply: (@l_density_error _ _ _ _ _ _ _ _ _ _ _ _ rs_good _ I (fun s => 0 < s.2) _ _ _ _ _ _ _ _ _ _ _ _ f c) => //.
- by move=> s y p; apply: sizes_marg.
- by move=> *; exact: force_bound.
Qed.
End L.
End Final.
(** The gradient step of the specification, [delta / 2 * g]. *)
Lemma half_step (d : nat) (A : Type) (g : A -> 'cV[R]_d) :
  (fun (x : A) (s : R * R) => (s.1 / 2%:R) *: g x) = (fun x s => sizes_step s (g x)).
Proof.
apply: functional_extensionality => x; apply: functional_extensionality => s.
by rewrite /sizes_step mul1r mulrC.
Qed.

Lemma half_step_t (d : nat) (Q : Type) (g : 'cV[R]_d -> 'cV[R]_d -> Q -> 'cV[R]_d) :
  (fun x x' (s : R * R) q => (s.1 / 2%:R) *: g x x' q) = (fun x x' s q => sizes_step s (g x x' q)).
Proof.
do 4 (apply: functional_extensionality => ?).
by rewrite /sizes_step mul1r mulrC.
Qed.
