(** * EsjdDraws: independent trajectories drawn from the target meet the hypothesis of C74. *)
From Coq Require Import Reals Lra.
From mathcomp Require Import all_ssreflect all_algebra.
From Verif Require Import RInst Prog ProgTheory Resampling Spec ErgodicSpec Csmc CsmcInvariance CsmcSpecs CsmcProofs ErgodicFinal ErgodicTp ProperSpec ProperProofs RunFinal Esjd EsjdSpec EsjdProofs EsjdFinal.

Set Implicit Arguments.
Unset Strict Implicit.
Unset Printing Implicit Defensive.
Import GRing.Theory Num.Theory Order.TTheory.
Local Open Scope ring_scope.

Section Draws.
Variables (X : finType) (m M : nat) (target : X -> seq X -> R) (x : X).
Hypothesis pos : forall x0 xs, 0 < target x0 xs.
Local Notation B := (X * m.-tuple X)%type.
Definition path_law (b : B) : R := target b.1 b.2 / path_sum m target.
(** Not in the code: M trajectories drawn at once, each from the target. *)
Definition path_draws (key : key) : prog (nat -> seq X) :=
  do f <- draw key (fun f : {ffun 'I_M -> B} => \prod_k path_law (f k));
  Ret (fun i => if insub i is Some j then (f j).1 :: (f j).2 else nseq m.+1 x).

Lemma path_law_mean (F : B -> R) (f : seq X -> R) : (forall b, F b = f (b.1 :: b.2)) -> \sum_b path_law b * F b = path_mean m target f.
Proof.
move=> e; rewrite /path_mean /path_sum mulr_suml.
transitivity (\sum_x0 \sum_(xs : m.-tuple X) path_law (x0, xs) * F (x0, xs)); first by rewrite pair_bigA; apply: eq_bigr => -[].
apply: eq_bigr => x0 _; rewrite mulr_suml; apply: eq_bigr => xs _.
by rewrite e /path_law /= mulrAC.
Qed.

Lemma path_lawP : prob_vec path_law.
Proof.
split=> [b|]; first by apply: divr_ge0; [exact: ltW (pos _ _)|exact: ltW (path_sum_gt0 m pos x)].
rewrite -(mean_const m pos x 1) -(@path_law_mean (fun=> 1) (fun=> 1)) //.
by apply: eq_bigr => b _; rewrite mulr1.
Qed.

Lemma draws_prod (h : 'I_M -> B -> R) :
  \sum_(f : {ffun 'I_M -> B}) (\prod_k path_law (f k)) * \prod_k h k (f k) = \prod_k \sum_b path_law b * h k b.
Proof. by rewrite (bigA_distr_bigA (fun k b => path_law b * h k b)); apply: eq_bigr => f _; rewrite -big_split. Qed.

Lemma path_draws_pairwise key : pairwise_draws (path_mean m target) M (path_draws key).
Proof.
have [q0 q1] := path_lawP.
have one (k : 'I_M) (F : B -> R) : (forall b, F b = 1) -> \sum_b path_law b * F b = 1.
  by move=> e; rewrite -[RHS]q1; apply: eq_bigr => b _; rewrite e mulr1.
split.
- apply: proper_bind => //; split=> // [f|].
    by apply: prodr_ge0 => k _; exact: q0.
  rewrite -(@bigA_distr_bigA _ _ _ _ _ _ _ (fun (k : 'I_M) (b : B) => path_law b)); apply: big1 => k _; exact: q1.
- move=> i f iM; rewrite E_bind /=.
  transitivity (\sum_(g : {ffun 'I_M -> B}) (\prod_k path_law (g k)) * \prod_k (if k == Ordinal iM then f ((g k).1 :: (g k).2) else 1)).
    apply: eq_bigr => g _; congr (_ * _); rewrite insubT /= -big_mkcond big_pred1_eq.
    by congr f; congr (_ :: _); congr (val _); congr (_.2); congr (g _); apply: val_inj.
  rewrite (draws_prod (fun k b => if k == Ordinal iM then f (b.1 :: b.2) else 1)) (bigD1 (Ordinal iM)) //= eqxx.
  rewrite [X in _ * X]big1 ?mulr1; first by apply: path_law_mean.
  by move=> k /negbTE ne; apply: (one k) => b; rewrite ne.
- move=> i j f g iM jM ij; rewrite E_bind /=.
  have nij : Ordinal jM != Ordinal iM by apply: contra ij => /eqP [->].
  transitivity (\sum_(z : {ffun 'I_M -> B}) (\prod_k path_law (z k)) *
      \prod_k (if k == Ordinal iM then f ((z k).1 :: (z k).2) else if k == Ordinal jM then g ((z k).1 :: (z k).2) else 1)).
    apply: eq_bigr => z _; congr (_ * _); rewrite !insubT /= (bigD1 (Ordinal iM)) //= eqxx (bigD1 (Ordinal jM)) //= eqxx (negbTE nij).
    rewrite [X in _ = _ * (_ * X)]big1 ?mulr1 // => k /andP[/negbTE -> /negbTE ->] //.
  rewrite (draws_prod (fun k b => if k == Ordinal iM then f (b.1 :: b.2) else if k == Ordinal jM then g (b.1 :: b.2) else 1)).
  rewrite (bigD1 (Ordinal iM)) //= eqxx (bigD1 (Ordinal jM)) //= (negbTE nij) eqxx.
  rewrite [X in _ * (_ * X)]big1 ?mulr1; first by congr (_ * _); exact: path_law_mean.
  by move=> k /andP[/negbTE n1 /negbTE n2]; apply: (one k) => b; rewrite n1 n2.
Qed.

Lemma path_draws_size key : always (fun xs : nat -> seq X => forall i, size (xs i) = m.+1) (path_draws key).
Proof.
move=> f /= i; case: insubP => [j _ _|_] /=; by rewrite ?size_tuple ?size_nseq.
Qed.
End Draws.

Lemma ex_jump_ok n' m M (G0 : bool -> bool -> R) (Gt : bool -> bool -> bool -> unit -> R) key0 : (0 < n')%N -> (0 < M)%N ->
  let kern d key x0 xs b0 bs := drop_weights
    (kernel (@killing n') (@barker_move n'.+1) (ex_model n' (G0 d) (Gt d)) key x0 xs b0 bs (nseq m tt) (nseq m tt) true true) in
  let target d := path_target (G0 d) (Gt d) (nseq m tt) in
  estimates_jump m M target (fun (b : bool) (_ : 'I_1) => b%:R) true (fun d => from_zeros m (kern d) key0)
    (fun get_data key K => lg_esjd_run (fun (b : bool) (_ : 'I_1) => b%:R) fst get_data
       (fun key d => path_draws m M (target d) true key) (fun _ xs => (xs, nseq m.+1 ord0)) (fun d => on_pairs (kern d)) key K M)
  /\ forall d, path_invariant m (target d) (from_zeros m (kern d) key0).
Proof.
move=> n0 M0; have [_ mk mb _] := mixing_contracts n'; have [_ dk db _] := code_draws n'; have [fb _] := ex_final_moves n'.
have pos d x0 xs : 0 < path_target (G0 d) (Gt d) (nseq m tt) x0 xs by exact: path_target_gt0.
have [h1 h2] := @csmc_esjd bool n' m 1 M (@killing n') (@barker_move n'.+1) (fun=> 0) true M0 n0 mk dk fb bool_finType
  (fun b _ => b%:R) true (fun key d => path_draws m M (path_target (G0 d) (Gt d) (nseq m tt)) true key)
  unit unit (fun d => ex_model n' (G0 d) (Gt d)) _ _ (fun=> nseq m tt) (fun=> nseq m tt)
  (fun d => ex_markov n' (G0 d) (Gt d)) (fun=> size_nseq m tt) (fun=> size_nseq m tt)
  (fun key d => @path_draws_pairwise bool_finType m M _ true (pos d) key) (fun key d => @path_draws_size bool_finType m M _ true key) key0.
split=> //; apply: h2; exact: barker_good.
Qed.
