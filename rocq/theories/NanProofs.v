(** * NanProofs: the kernel of csmc.py for targets with zeros (C86). *)
From Coq Require Import Reals Lra FunctionalExtensionality.
From mathcomp Require Import all_ssreflect all_algebra.
From Verif Require Import RInst Prog ProgTheory Resampling Spec ResamplingProofs Csmc CsmcInvariance BackwardProofs.
From Verif Require Import NanCsmc NanSpec NanTheory NanNumbers.

Set Implicit Arguments.
Unset Strict Implicit.
Unset Printing Implicit Defensive.
Import GRing.Theory Num.Theory Order.TTheory.
Local Open Scope ring_scope.

(** ** Programs that may be without result *)
Lemma E_obind A B (m : prog (option A)) (g : A -> prog (option B)) f :
  E (obind m g) f = E m (fun o => if o is Some a then E (g a) f else f None).
Proof. by rewrite /obind E_bind; apply: eq_E => -[a|]. Qed.

Lemma E_on_weights n A (w : 'I_n -> xnum) (h : ('I_n -> R) -> prog A) f :
  E (on_weights w h) f = if finite_weights w is Some v then E (h v) (fun a => f (Some a)) else f None.
Proof. by rewrite /on_weights; case: (finite_weights w) => [v|] //=; rewrite E_bind. Qed.

Lemma E_oscan_rcons C I O (body : C -> I -> prog (option (C * O))) c ins i f :
  E (oscan body c (rcons ins i)) f
  = E (oscan body c ins) (fun o => if o is Some co then
      E (body co.1 i) (fun o' => f (omap (fun co' => (co'.1, rcons co.2 co'.2)) o')) else f None).
Proof.
elim: ins c f => [|j ins IH] c f /=.
  by rewrite E_obind; apply: eq_E => -[[c' o]|].
rewrite !E_obind; apply: eq_E => -[[c' o]|] //.
rewrite !E_obind IH; apply: eq_E => -[[c'' os]|] //=.
by apply: eq_E => -[[c3 o3]|].
Qed.

Section Link.
Variables (X : Type) (n' : nat) (P Q : Type).
Local Notation n := n'.+1.
Local Notation pop := {ffun 'I_n -> X}.
Local Notation anc := {ffun 'I_n -> 'I_n}.
Local Notation lwts := (xlwts n').
Local Notation Z := (X * 'I_n)%type.
Local Notation nstep := (nstep X n' lwts).
Local Notation nhist := (nhist X n' lwts).
Variables (md : xmodel X n' P Q) (rs : resampler n) (mv : mover n).
Variables (G0 : X -> R) (Gt : X -> X -> Q -> R).
Local Notation nfwd := (nfwd (@usable n') (@wnorm n')).

Definition cinit (key : key) : ninit X n' lwts :=
  NInit (fun b x => do x0 <- xM0_rvs md (split key 0); Ret (upd x0 b x)) (xlog_w0 md) G0.

Definition cstep (key : key) (p : P) (q : Q) : nstep :=
  NStep (fun w i j => rs (split key 1) w i j true)
        (fun xm b x => do xt <- xMt_rvs md (split key 0) xm p; Ret (upd xt b x))
        (fun xm xt => xlog_wt md xm xt p q)
        (fun xl l x => finite_weights (xbwd_weights (xGammat md) x xl l q))
        (fun x y => Gt x y q).

Definition istep (i : xinp X n' P Q) := cstep (xi_key i) (xi_p i) (xi_q i).
Definition iref (i : xinp X n' P Q) : Z := (xi_x i, xi_b i).
Definition isteps ins := map istep ins.

(** *** Inputs *)
Lemma inputs_steps ps qs b0 bs key c xs b0' bs' xs' :
  size ps = size qs -> size bs = size qs -> size xs = size qs -> size bs' = size qs -> size xs' = size qs ->
  isteps (xinputs ps qs b0 bs key c xs) = isteps (xinputs ps qs b0' bs' key c xs').
Proof.
elim: qs ps b0 bs c xs b0' bs' xs' => [|q qs IH] [|p ps] b0 [|b bs] c [|x xs] b0' [|b' bs'] [|x' xs'] //=.
by move=> [s1] [s2] [s3] [s4] [s5]; congr (_ :: _); apply: IH.
Qed.

Lemma inputs_map (T : Type) (f : nstep -> T) (g : Q -> T) ps qs b0 bs key c xs :
  (forall k p q, f (cstep k p q) = g q) ->
  size ps = size qs -> size bs = size qs -> size xs = size qs ->
  [seq f s | s <- isteps (xinputs ps qs b0 bs key c xs)] = map g qs.
Proof.
move=> fg; elim: qs ps b0 bs c xs => [|q qs IH] [|p ps] b0 [|b bs] c [|x xs] //= [s1] [s2] [s3].
by rewrite IH // fg.
Qed.

Lemma inputs_ref ps qs b0 bs key c xs : size ps = size qs -> size bs = size qs -> size xs = size qs ->
  [seq iref i | i <- xinputs ps qs b0 bs key c xs] = zip xs bs.
Proof.
elim: qs ps b0 bs c xs => [|q qs IH] [|p ps] b0 [|b bs] c [|x xs] //= [s1] [s2] [s3].
by rewrite IH.
Qed.

Fixpoint chained (b : 'I_n) (ins : seq (xinp X n' P Q)) : Prop :=
  if ins is i :: ins' then xi_bm1 i = b /\ chained (xi_b i) ins' else True.

Lemma chained_rcons b ins i :
  chained b (rcons ins i) <-> chained b ins /\ xi_bm1 i = last b [seq xi_b j | j <- ins].
Proof. by elim: ins b => [|j ins IH] b /=; [tauto | rewrite IH; tauto]. Qed.

Lemma inputs_chained ps qs b0 bs key c xs : chained b0 (xinputs ps qs b0 bs key c xs).
Proof. by elim: qs ps b0 bs c xs => [|q qs IH] [|p ps] b0 [|b bs] c [|x xs]. Qed.

(** *** Forward pass *)
Definition normalised (l : lwts) : Prop := exists l0, l = xnormalize_log l0.

Lemma nfwd_normalised key z0 ins p :
  always (fun o : option nhist => if o is Some h then normalised (nlast h).1 else True)
    (nfwd (cinit key) z0 (isteps ins) p).
Proof.
case: ins => [|i ins] /=.
  by apply/always_bind; apply: always_true => x /=; eexists.
apply/always_bind; apply: always_true => -[h|] //; case: ifP => // _.
apply/always_bind; apply: always_true => A; apply/always_bind; apply: always_true => xt /=.
by eexists.
Qed.

Lemma finite_exp l : normalised l ->
  finite_weights (fun i => xexp (l i)) = if usable l then Some (wnorm l) else None.
Proof. by move=> [l0 ->]; rewrite finite_normalized finite_normalize. Qed.

Lemma E_body w x i f :
  E (xfwd_body rs md true (w, x) i) f
  = if finite_weights w is Some v then
      E (s_rs (istep i) v (xi_bm1 i) (xi_b i)) (fun A =>
        let xm := take_ax x A in
        E (s_prop (istep i) xm (xi_b i) (xi_x i)) (fun xt =>
          let lw := s_lw (istep i) xm xt in
          f (Some ((fun l => xexp (lw l), xt), (lw, A, xt)))))
    else f None.
Proof.
rewrite /xfwd_body E_obind E_on_weights; case: (finite_weights w) => [v|] //=.
by apply: eq_E => A; rewrite !E_bind.
Qed.

Lemma E_scan_nfwd key z0 z ins (F : lwts * pop -> option (('I_n -> xnum) * pop * seq (lwts * anc * pop)) -> R) c :
  (forall h0, F h0 None = c) -> chained z.2 ins ->
  E (s0_prop (cinit key) z.2 z.1) (fun x0 =>
    E (oscan (xfwd_body rs md true) (fun l => xexp (xlog_w0 md x0 l), x0) ins) (F (xlog_w0 md x0, x0)))
  = E (nfwd (cinit key) z0 (isteps (rev ins)) (rev (z :: map iref ins)))
      (fun o => if o is Some h then F h.1 (Some (fun l => xexp ((nlast h).1 l), (nlast h).2, rev h.2)) else c).
Proof.
move=> Fc.
elim/last_ind: ins F Fc => [|ins i IH] F Fc; first by move=> _ /=; rewrite !E_bind.
move=> /chained_rcons [ch bi].
rewrite map_rcons -rcons_cons !rev_rcons [RHS]/= [RHS]E_bind.
have hd : (head z0 (rev (z :: map iref ins))).2 = last z.2 [seq xi_b j | j <- ins].
  rewrite -nth0 nth_rev //= subn1 /= -last_nth; elim/last_ind: ins {IH ch bi} => [|l a _] //=.
  by rewrite !map_rcons !last_rcons.
pose G (h0 : lwts * pop) (o : option (('I_n -> xnum) * pop * seq (lwts * anc * pop))) :=
  if o is Some co then
    E (xfwd_body rs md true co.1 i) (fun o' => F h0 (omap (fun co' => (co'.1, rcons co.2 co'.2)) o'))
  else c.
transitivity (E (s0_prop (cinit key) z.2 z.1) (fun x0 =>
    E (oscan (xfwd_body rs md true) (fun l => xexp (xlog_w0 md x0 l), x0) ins) (G (xlog_w0 md x0, x0)))).
  by apply: eq_E => x0; rewrite E_oscan_rcons; apply: eq_E => -[co|] //=; rewrite Fc.
rewrite IH //.
apply: eq_E_always; apply: always_imp (nfwd_normalised key z0 (rev ins) (rev (z :: map iref ins))) => -[h|] //= nz.
rewrite E_body finite_exp //; case: (boolP (usable _)) => u /=; last by rewrite Fc.
rewrite [RHS]E_bind bi hd; apply: eq_E => A; rewrite !E_bind; apply: eq_E => xt /=.
by rewrite rev_cons.
Qed.

Lemma E_forward key x0 xs b0 bs ps qs z0 f :
  size ps = size qs -> size bs = size qs -> size xs = size qs ->
  E (xforward_pass rs md key x0 xs b0 bs ps qs true) f
  = E (nfwd (cinit key) z0 (rev (isteps (xinputs ps qs b0 bs (split key 1) 0 xs)))
          (rev (zip (x0 :: xs) (b0 :: bs)))) (fun o => f (omap (fun h => (h.1, rev h.2)) o)).
Proof.
move=> s1 s2 s3; rewrite /xforward_pass E_bind.
have := @E_scan_nfwd key z0 (x0, b0) (xinputs ps qs b0 bs (split key 1) 0 xs)
  (fun h0 o => f (omap (fun co => (h0, co.2)) o)) (f None) (fun _ => erefl) (inputs_chained _ _ _ _ _ _ _).
rewrite inputs_ref // /isteps map_rev => H.
transitivity (E (s0_prop (cinit key) b0 x0) (fun x1 =>
  E (oscan (xfwd_body rs md true) (fun l => xexp (xlog_w0 md x1 l), x1) (xinputs ps qs b0 bs (split key 1) 0 xs))
    (fun o => f (omap (fun co => ((xlog_w0 md x1, x1), co.2)) o)))).
  rewrite E_bind; apply: eq_E => y /=; rewrite E_obind; by apply: eq_E => -[[c o]|].
rewrite H; by apply: eq_E => -[h|].
Qed.

(** *** Backward passes *)
Lemma rev_gens (h0 : lwts * pop) outs :
  rev (xgens (h0, rev outs)) = rcons [seq (s.1.1, s.2) | s <- outs] h0.
Proof. by case: h0 => lw x; rewrite /xgens rev_cons -map_rev revK. Qed.

Lemma last_gen_rev (h0 : lwts * pop) outs : xlast_gen (h0, rev outs) = nlast (h0, outs).
Proof.
case: h0 => lw x; case: outs => [|[[lw' A] x'] outs] //=.
by rewrite rev_cons map_rcons last_rcons.
Qed.

Lemma gens_size (h0 : lwts * pop) outs : size (xgens (h0, outs)) = (size outs).+1.
Proof. by case: h0 => lw x /=; rewrite size_map. Qed.

Lemma E_scan_trace (h0 : lwts * pop) outs (k : 'I_n) (f : option ('I_n * seq Z) -> R) :
  E (oscan (@xscan_body X n') k
       (zip (behead (rev (unzip2 (xgens (h0, rev outs))))) (rev [seq s.1.2 | s <- rev outs]))) f
  = f (Some (last k (unzip2 (ntrace h0 outs k)), behead (ntrace h0 outs k))).
Proof.
rewrite -rev_unzip2 rev_gens map_rev revK.
elim: outs k f => [|[[lw A] x] outs IH] k f //=.
have e : unzip2 (rcons [seq (s.1.1, s.2) | s <- outs] h0)
       = (nlast (h0, outs)).2 :: behead (unzip2 (rcons [seq (s.1.1, s.2) | s <- outs] h0)).
  by case: outs {IH} => [|[[lw' A'] x'] outs] //=.
rewrite e /= E_obind /= E_obind IH /=.
have -> : ntrace h0 outs (A k) = ((nlast (h0, outs)).2 (A k), A k) :: behead (ntrace h0 outs (A k)).
  by case: outs {IH e} => [|[[lw' A'] x'] outs].
by [].
Qed.

Definition out_path (p : seq Z) : seq X * seq 'I_n := (unzip1 (rev p), unzip2 (rev p)).

Lemma E_scanning key bT (h0 : lwts * pop) outs f :
  E (xbackward_scanning_pass mv key bT (h0, rev outs)) f
  = if usable (nlast (h0, outs)).1 then
      E (mv key (wnorm (nlast (h0, outs)).1) bT) (fun r => f (Some (out_path (ntrace h0 outs r.1))))
    else f None.
Proof.
rewrite /xbackward_scanning_pass last_gen_rev.
case e: (nlast _) => [lw x] /=; rewrite E_obind E_on_weights finite_normalize.
case: (usable lw) => //; apply: eq_E => -[B al] /=.
rewrite E_obind E_scan_trace /= /out_path rev_unzip1 rev_unzip2.
have -> : ntrace h0 outs B = (x B, B) :: behead (ntrace h0 outs B).
  by case: outs e => [|[[lw' A'] x'] outs] /=; rewrite /nlast /=; [move=> -> | case=> _ ->].
by [].
Qed.

Lemma E_scan_bs (key : key) (st : seq nstep) qs c (h0 : lwts * pop) outs (k : 'I_n)
    (f : option (seq Z) -> R) :
  size outs = size st ->
  [seq s_bw s | s <- st] = [seq (fun xl l x => finite_weights (xbwd_weights (xGammat md) x xl l q)) | q <- qs] ->
  E (oscan (xbwd_body (xGammat md)) ((nlast (h0, outs)).2 k)
       (xbwd_inputs key c (behead (rev (xgens (h0, rev outs)))) qs))
    (fun o => f (omap (fun co => ((nlast (h0, outs)).2 k, k) :: co.2) o))
  = E (nbs (fun c => split key c) st c h0 outs k) f.
Proof.
rewrite rev_gens.
elim: outs st qs c k f => [|[[lw A] x] outs IH] [|s st] [|q qs] c k f //= [sz] [eg em].
have e : rcons [seq (s.1.1, s.2) | s <- outs] h0
       = nlast (h0, outs) :: behead (rcons [seq (s.1.1, s.2) | s <- outs] h0).
  by case: outs {IH sz} => [|[[lw' A'] x'] outs] //=.
rewrite e; case el: (nlast (h0, outs)) => [l y] /=.
rewrite E_obind E_obind E_on_weights eg; case: (finite_weights _) => [v|] //=.
apply: eq_bigr => j _ /=; congr (_ * _).
rewrite !E_obind E_bind /= -(IH st qs) // el /=.
by apply: eq_E => -[[c' o]|].
Qed.

Lemma E_sampling (key : key) (st : seq nstep) qs bT (h0 : lwts * pop) outs f :
  size outs = size st ->
  [seq s_bw s | s <- st] = [seq (fun xl l x => finite_weights (xbwd_weights (xGammat md) x xl l q)) | q <- rev qs] ->
  E (xbackward_sampling_pass mv (xGammat md) key qs bT (h0, rev outs) true) f
  = if usable (nlast (h0, outs)).1 then
      E (mv (split key (size outs)) (wnorm (nlast (h0, outs)).1) bT) (fun r =>
        E (nbs (fun c => split key c) st 0 h0 outs r.1) (fun o => f (omap out_path o)))
    else f None.
Proof.
move=> sz eg; rewrite /xbackward_sampling_pass last_gen_rev gens_size size_rev.
case e: (nlast _) => [lw x] /=; rewrite E_obind E_on_weights finite_normalize.
case: (usable lw) => //; apply: eq_E => -[B al] /=.
rewrite E_obind -(@E_scan_bs _ _ _ _ _ _ _ _ sz eg) e /=.
by apply: eq_E => -[[c o]|] //=; rewrite /out_path rev_unzip1 rev_unzip2.
Qed.

Lemma nfwd_size key z0 st p :
  always (fun o : option nhist => if o is Some h then size h.2 = size st else True) (nfwd (cinit key) z0 st p).
Proof.
elim: st p => [|s st IH] p /=.
  by apply/always_bind; apply: always_true.
apply/always_bind; apply: always_imp (IH (behead p)) => -[h|] // sz; case: ifP => // _.
apply/always_bind; apply: always_true => A; apply/always_bind; apply: always_true => xt /=.
by rewrite sz.
Qed.

Lemma E_kernel key x0 xs b0 bs ps qs backward z0 f :
  size ps = size qs -> size bs = size qs -> size xs = size qs ->
  E (odrop (xkernel rs mv md key x0 xs b0 bs ps qs backward true)) f
  = E (nkern (@usable n') (@wnorm n') (cinit key) z0 (fun c => split (split key 2) c)
         (gmv mv (mv_key backward key (size qs)))
         (rev (isteps (xinputs ps qs b0 bs (split key 1) 0 xs)))
         backward (rev (zip (x0 :: xs) (b0 :: bs))))
      (fun o => f (omap out_path o)).
Proof.
move=> s1 s2 s3; rewrite /odrop E_bind /xkernel E_obind (@E_forward key x0 xs b0 bs ps qs z0) //.
rewrite /nkern E_bind; apply: eq_E_always.
apply: always_imp (nfwd_size key z0 (rev (isteps (xinputs ps qs b0 bs (split key 1) 0 xs)))
     (rev (zip (x0 :: xs) (b0 :: bs)))) => -[h|] // sz /=.
rewrite E_obind.
have -> : (head z0 (rev (zip (x0 :: xs) (b0 :: bs)))).2 = last b0 bs.
  rewrite -nth0 nth_rev //= subn1 /= -last_nth /=.
  have le : (size bs <= size xs)%N by rewrite s2 s3.
  rewrite -[in RHS](unzip2_zip le).
  by elim: (zip xs bs) (x0) (b0) => [|[a b] l IH] y c //=.
have szq : size h.2 = size qs.
  by rewrite sz size_rev -(size_map (fun s => s_gam s)) (@inputs_map _ _ (fun q x y => Gt x y q)) // size_map.
transitivity (if usable (nlast h).1 then
   E (gmv mv (mv_key backward key (size qs)) (wnorm (nlast h).1) (last b0 bs)) (fun k =>
     E (nback (fun c => split (split key 2) c) (rev (isteps (xinputs ps qs b0 bs (split key 1) 0 xs))) backward h k)
       (fun o => f (omap out_path o))) else f None); last first.
  by case: ifP => // _; rewrite E_bind.
rewrite /mv_key /nback /gmv; case: backward.
- rewrite (@E_sampling (split key 2) (rev (isteps (xinputs ps qs b0 bs (split key 1) 0 xs)))) //; last first.
    rewrite map_rev (@inputs_map _ _ (fun q xl l x => finite_weights (xbwd_weights (xGammat md) x xl l q))) //.
    by rewrite map_rev.
  rewrite szq -surjective_pairing; case: ifP => // _.
  by rewrite [RHS]E_bind; apply: eq_E => -[k al] /=; apply: eq_E => -[p|].
- rewrite E_scanning -surjective_pairing; case: ifP => // _.
  by rewrite [RHS]E_bind; apply: eq_E.
Qed.

End Link.
