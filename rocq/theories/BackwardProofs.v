(** * BackwardProofs: the backward passes of csmc.py in the form used by SmcTheory. *)
From Coq Require Import Reals FunctionalExtensionality.
From mathcomp Require Import all_ssreflect all_algebra.
From Verif Require Import RInst Prog ProgTheory Resampling Spec ResamplingProofs Csmc SmcTheory.

Set Implicit Arguments.
Unset Strict Implicit.
Unset Printing Implicit Defensive.
Import GRing.Theory Num.Theory Order.TTheory.
Local Open Scope ring_scope.

Lemma rev_unzip1 A B (s : seq (A * B)) : unzip1 (rev s) = rev (unzip1 s).
Proof. by rewrite /unzip1 map_rev. Qed.
Lemma rev_unzip2 A B (s : seq (A * B)) : unzip2 (rev s) = rev (unzip2 s).
Proof. by rewrite /unzip2 map_rev. Qed.

Section Back.
Variables (X : Type) (n' : nat) (Q : Type).
Local Notation n := n'.+1.
Local Notation pop := (pop X n').
Local Notation anc := (anc n').
Local Notation lwts := (lwts n').
Local Notation Z := (X * 'I_n)%type.
Local Notation gstep := (gstep X n').
Variable mv : mover n.

Lemma rev_gens (h0 : lwts * pop) outs :
  rev (gens (h0, rev outs)) = rcons [seq (s.1.1, s.2) | s <- outs] h0.
Proof. by case: h0 => lw x; rewrite /gens rev_cons -map_rev revK. Qed.

Lemma last_gen_rev (h0 : lwts * pop) outs : last_gen (h0, rev outs) = hlast (h0, outs).
Proof.
case: h0 => lw x; case: outs => [|[[lw' A] x'] outs] //=.
by rewrite rev_cons map_rcons last_rcons.
Qed.

Lemma gens_size (h0 : lwts * pop) outs : size (gens (h0, outs)) = (size outs).+1.
Proof. by case: h0 => lw x /=; rewrite size_map. Qed.

Lemma behead_rev_gens (h0 : lwts * pop) s outs :
  behead (rev (gens (h0, rev (s :: outs)))) = rev (gens (h0, rev outs)).
Proof. by rewrite !rev_gens. Qed.

(** *** Ancestor tracing *)
Lemma E_scan_trace (h0 : lwts * pop) outs (k : 'I_n) (f : 'I_n * seq Z -> R) :
  E (scan (@scan_body X n') k
       (zip (behead (rev (unzip2 (gens (h0, rev outs))))) (rev [seq s.1.2 | s <- rev outs]))) f
  = f (last k (unzip2 (gtrace h0 outs k)), behead (gtrace h0 outs k)).
Proof.
rewrite -rev_unzip2 rev_gens map_rev revK.
elim: outs k f => [|[[lw A] x] outs IH] k f //=.
have e : unzip2 (rcons [seq (s.1.1, s.2) | s <- outs] h0)
       = (hlast (h0, outs)).2 :: behead (unzip2 (rcons [seq (s.1.1, s.2) | s <- outs] h0)).
  by case: outs {IH} => [|[[lw' A'] x'] outs] //=.
rewrite e /= E_bind /= IH /=.
have -> : gtrace h0 outs (A k) = ((hlast (h0, outs)).2 (A k), A k) :: behead (gtrace h0 outs (A k)).
  by case: outs {IH e} => [|[[lw' A'] x'] outs].
by [].
Qed.

Lemma E_scanning key bT (h0 : lwts * pop) outs f :
  E (backward_scanning_pass mv key bT (h0, rev outs)) f
  = E (mv key (normalize (hlast (h0, outs)).1) bT)
      (fun r => let p := gtrace h0 outs r.1 in f (unzip1 (rev p), unzip2 (rev p))).
Proof.
rewrite /backward_scanning_pass last_gen_rev.
case e: (hlast _) => [lw x] /=; rewrite E_bind; apply: eq_E => -[B al] /=.
rewrite E_bind E_scan_trace /= rev_unzip1 rev_unzip2.
have -> : gtrace h0 outs B = (x B, B) :: behead (gtrace h0 outs B).
  by case: outs e => [|[[lw' A'] x'] outs] /=; rewrite /hlast /=; [move=> -> | case=> _ ->].
by [].
Qed.

(** *** Backward sampling *)
Variable Gam : X -> X -> Q -> R.

Lemma bwd_weightsE x (xm : pop) (lw : lwts) q :
  bwd_weights Gam x xm lw q = normalize (fun i => Gam (xm i) x q + lw i).
Proof.
apply: functional_extensionality => i; rewrite /bwd_weights.
set g := fun l => Gam (xm l) x q.
rewrite -(normalize_shift (fun i => g i + lw i) (- amax g)).
by apply: eq_normalize => l; rewrite addrAC.
Qed.

Lemma E_scan_bs (key : key) (st : seq gstep) qs c (h0 : lwts * pop) outs (k : 'I_n)
    (f : seq Z -> R) :
  size outs = size st -> [seq g_gam s | s <- st] = [seq (fun x y => Gam x y q) | q <- qs] ->
  E (scan (bwd_body Gam) ((hlast (h0, outs)).2 k)
       (bwd_inputs key c (behead (rev (gens (h0, rev outs)))) qs))
    (fun co => f (((hlast (h0, outs)).2 k, k) :: co.2))
  = E (gbs (fun c => split key c) st c h0 outs k) f.
Proof.
rewrite rev_gens.
elim: outs st qs c k f => [|[[lw A] x] outs IH] [|s st] [|q qs] c k f //= [sz] [eg em].
have e : rcons [seq (s.1.1, s.2) | s <- outs] h0
       = hlast (h0, outs) :: behead (rcons [seq (s.1.1, s.2) | s <- outs] h0).
  by case: outs {IH sz} => [|[[lw' A'] x'] outs] //=.
rewrite e; case el: (hlast (h0, outs)) => [l y] /=.
apply: eq_bigr => j _ /=; rewrite bwd_weightsE eg; congr (_ * _).
rewrite !E_bind /= -(IH st qs) // el /= .
by apply: eq_E => -[c' o].
Qed.

Lemma E_sampling (key : key) (st : seq gstep) qs bT (h0 : lwts * pop) outs f :
  size outs = size st -> [seq g_gam s | s <- st] = [seq (fun x y => Gam x y q) | q <- rev qs] ->
  E (backward_sampling_pass mv Gam key qs bT (h0, rev outs) true) f
  = E (mv (split key (size outs)) (normalize (hlast (h0, outs)).1) bT) (fun r =>
      E (gbs (fun c => split key c) st 0 h0 outs r.1)
        (fun p => f (unzip1 (rev p), unzip2 (rev p)))).
Proof.
move=> sz eg; rewrite /backward_sampling_pass last_gen_rev gens_size size_rev.
case e: (hlast _) => [lw x] /=; rewrite E_bind; apply: eq_E => -[B al] /=.
rewrite E_bind -(@E_scan_bs _ _ _ _ _ _ _ _ sz eg) e /=.
by apply: eq_E => -[c o] /=; rewrite rev_unzip1 rev_unzip2.
Qed.

End Back.
