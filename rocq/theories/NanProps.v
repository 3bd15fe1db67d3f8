(** * NanProps: final forms for C86. *)
From Coq Require Import Reals.
From mathcomp Require Import all_ssreflect all_algebra.
From Verif Require Import RInst Prog ProgTheory Resampling Spec Csmc CsmcInvariance CsmcFinal.
From Verif Require Import NanCsmc NanSpec NanNumbers NanProofs NanFinal NanAgree NanExamples.

Set Implicit Arguments.
Unset Strict Implicit.
Unset Printing Implicit Defensive.
Import GRing.Theory Num.Theory Order.TTheory.
Local Open Scope ring_scope.

Section Final.
Variables (X : finType) (n' : nat) (P Q : Type) (md : xmodel X n' P Q).
Variables (mu0 : X -> R) (mut : X -> P -> X -> R) (G0 : X -> R) (Gt : X -> X -> Q -> R).
Variables (rs : resampler n'.+1) (mv : mover n'.+1).

Lemma has_result (key : key) ps qs (backward : bool) x0 xs b0 bs :
  markov_zeros md mu0 mut G0 Gt -> good_resampler rs -> good_mover mv -> proper_mover mv ->
  size ps = size qs -> size xs = size qs -> size bs = size qs -> 0 < pot_target G0 Gt qs x0 xs ->
  Pr (odrop (xkernel rs mv md key x0 xs b0 bs ps qs backward true))
     (fun o => if o is Some (y0 :: ys, _) then pot_target G0 Gt qs y0 ys == 0 else true) = 0.
Proof.
move=> mk gr gm pm s1 s2 s3 pos.
apply: (nan_null_any mk gr) pos => // y0 ys c0 cs _ _ /=.
by case: eqP => [->|_]; rewrite ?mul0r ?mulr0.
Qed.

Lemma iterations (keys : seq key) ps qs (backward : bool) x0 xs b0 bs :
  markov_zeros md mu0 mut G0 Gt -> good_resampler rs -> good_mover mv -> proper_mover mv ->
  size ps = size qs -> size xs = size qs -> size bs = size qs -> 0 < pot_target G0 Gt qs x0 xs ->
  Pr (xruns rs mv md ps qs backward keys (x0 :: xs, b0 :: bs)) (fun o => ~~ isSome o) = 0.
Proof.
move=> mk gr gm pm s1 s2 s3 pos; apply: (nan_runs mk gr) => //.
by exists x0, xs, b0, bs.
Qed.
End Final.

Lemma nan_contracts (n' : nat) :
  [/\ good_resampler (@multinomial n'.+1), good_resampler (@killing n'), good_mover (@barker_move n'.+1)
    & proper_mover (@barker_move n'.+1)].
Proof. by have [r1 r2 _] := contracts n'; have [m1 m2] := movers n'. Qed.

Lemma zeros_met (m n' : nat) :
  let G0 := fun x : 'I_m.+1 => (x == ord0)%:R : R in
  let Gt := fun (x y : 'I_m.+1) (_ : unit) => (x == y)%:R : R in
  [/\ markov_zeros (zmodel n' G0 Gt) (fun _ => u_ m) (fun _ _ _ => u_ m) G0 Gt
    & forall T, 0 < pot_target G0 Gt (nseq T tt) ord0 (nseq T ord0)].
Proof.
move=> G0 Gt; split=> [|T].
  by apply: zmodel_ok => *; rewrite ler0n.
rewrite /pot_target; apply: mulr_gt0; first by rewrite /G0 eqxx ltr01.
by elim: T => [|T IH] /=; rewrite ?ltr01 // /Gt eqxx mul1r.
Qed.
