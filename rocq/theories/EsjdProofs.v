(** * EsjdProofs: proofs for C74. *)
From Coq Require Import Reals Lra.
From mathcomp Require Import all_ssreflect all_algebra.
From Verif Require Import RInst Prog ProgTheory Spec CsmcProofs DriverProofs Experiments ErgodicSpec ErgodicChain.
From Verif Require Import ProperProofs RunProofs Esjd EsjdSpec.

Set Implicit Arguments.
Unset Strict Implicit.
Unset Printing Implicit Defensive.
Import GRing.Theory Num.Theory Order.TTheory.
Local Open Scope ring_scope.

(** ** Means over trajectories *)
Section Mean.
Variables (X : finType) (m : nat) (target : X -> seq X -> R).
Local Notation mean := (path_mean m target).

Lemma path_sum_lin (F G : X -> seq X -> R) (a b : R) :
  path_sum m (fun x0 xs => a * F x0 xs + b * G x0 xs) = a * path_sum m F + b * path_sum m G.
Proof.
rewrite /path_sum !mulr_sumr -big_split; apply: eq_bigr => x0 _ /=.
by rewrite !mulr_sumr -big_split; apply: eq_bigr.
Qed.

Lemma path_sum_eq (F G : X -> seq X -> R) : (forall x0 (xs : m.-tuple X), F x0 xs = G x0 xs) -> path_sum m F = path_sum m G.
Proof. by move=> h; apply: eq_bigr => x0 _; apply: eq_bigr => xs _. Qed.

Lemma mean_eq f g : (forall xs, size xs = m.+1 -> f xs = g xs) -> mean f = mean g.
Proof. by move=> h; congr (_ / _); apply: path_sum_eq => x0 xs; rewrite h //= size_tuple. Qed.

Lemma mean_lin a b f g : mean (fun xs => a * f xs + b * g xs) = a * mean f + b * mean g.
Proof.
rewrite /path_mean !mulrA -mulrDl -path_sum_lin; congr (_ / _); apply: path_sum_eq => x0 xs.
by rewrite mulrDr !mulrA ![target _ _ * _]mulrC.
Qed.

Lemma mean_scale a f : mean (fun xs => a * f xs) = a * mean f.
Proof.
rewrite -[RHS]addr0 -[X in _ = _ + X](mul0r (mean f)) -mean_lin; apply: mean_eq => xs _.
by rewrite mul0r addr0.
Qed.

Lemma mean_add f g : mean (fun xs => f xs + g xs) = mean f + mean g.
Proof. by rewrite -[mean f]mul1r -[mean g]mul1r -mean_lin; apply: mean_eq => xs _; rewrite !mul1r. Qed.

Lemma mean_sum (I : Type) (r : seq I) (f : I -> seq X -> R) : mean (fun xs => \sum_(i <- r) f i xs) = \sum_(i <- r) mean (f i).
Proof.
elim: r => [|i r IH].
  rewrite big_nil -[RHS](mul0r (mean (fun=> 0))) -mean_scale; apply: mean_eq => xs _.
  by rewrite big_nil mul0r.
by rewrite big_cons -IH -mean_add; apply: mean_eq => xs _; rewrite big_cons.
Qed.

Hypothesis pos : forall x0 xs, 0 < target x0 xs.
Hypothesis x : X.
Lemma path_sum_gt0 : 0 < path_sum m target.
Proof.
rewrite /path_sum; apply: (@lt_le_trans _ _ (target x (nseq_tuple m x))) => //.
rewrite (bigD1 x) //= (bigD1 (nseq_tuple m x)) //= -addrA ler_addl.
by apply: addr_ge0; [|apply: sumr_ge0 => y _]; apply: sumr_ge0 => *; exact: ltW.
Qed.

Lemma mean_const c : mean (fun=> c) = c.
Proof.
rewrite /path_mean -[path_sum m (fun _ _ => _)]/(path_sum m (fun x0 xs => target x0 xs * c)).
have -> : path_sum m (fun x0 xs => target x0 xs * c) = c * path_sum m target.
  rewrite -[RHS]addr0 -[X in _ = _ + X](mul0r (path_sum m target)) -path_sum_lin; apply: path_sum_eq => x0 xs.
  by rewrite mul0r addr0 mulrC.
by rewrite mulfK // gt_eqF // path_sum_gt0.
Qed.

Lemma mean_le f g : (forall xs, size xs = m.+1 -> f xs <= g xs) -> mean f <= mean g.
Proof.
move=> h; apply: ler_wpmul2r; first by rewrite invr_ge0 ltW // path_sum_gt0.
apply: ler_sum => x0 _; apply: ler_sum => xs _; apply: ler_wpmul2l; first exact: ltW.
by apply: h; rewrite /= size_tuple.
Qed.
End Mean.

(** ** Sums of independent outputs *)
Section Sums.
Variables (I O : Type) (K : I -> prog O) (G : O -> R).
Local Notation chains := (scan (fun (_ : unit) i => do r <- K i; Ret (tt, r)) tt).
Local Notation e i := (E (K i) G).
Local Notation v i := (E (K i) (fun a => (G a - e i) ^+ 2)).

Lemma chains_sum ins : all_proper K ins -> E (chains ins) (fun out => \sum_(a <- out.2) G a) = \sum_(i <- ins) e i.
Proof.
elim: ins => [_|i ins IH [h1 h2]]; first by rewrite /= !big_nil.
rewrite [LHS]E_bind E_bind big_cons -(IH h2) -[RHS]addr0.
rewrite (@eq_E _ _ _ (fun a => G a + E (chains ins) (fun out => \sum_(a <- out.2) G a))) => [|a]; last first.
  rewrite /= E_bind -[G a in RHS](E_const (G a) (chains_proper h2)) -E_add; apply: eq_E => -[u l].
  by rewrite /= big_cons.
by rewrite E_add E_const // addr0.
Qed.

Lemma E_square (p : prog O) (B : R) : proper p ->
  E p (fun a => (G a + B) ^+ 2) = (E p G + B) ^+ 2 + E p (fun a => (G a - E p G) ^+ 2).
Proof.
have alg (u w b : R) : (u + b) ^+ 2 = (u - w) ^+ 2 + (2%:R * (w + b) * u + (b ^+ 2 - w ^+ 2)) by rewrite !expr2; Rring.
have alg2 (w b : R) : 2%:R * (w + b) * w + (b ^+ 2 - w ^+ 2) = (w + b) ^+ 2 by rewrite !expr2; Rring.
move=> pr; rewrite (eq_E _ (fun a => alg (G a) (E p G) B)) E_add E_add E_scale E_const // alg2; exact: addrC.
Qed.

Lemma chains_square ins (A : R) : all_proper K ins ->
  E (chains ins) (fun out => (\sum_(a <- out.2) G a - A) ^+ 2)
  = (\sum_(i <- ins) e i - A) ^+ 2 + \sum_(i <- ins) v i.
Proof.
elim: ins A => [|i ins IH] A; first by rewrite /= !big_nil addr0.
move=> [h1 h2]; rewrite [LHS]E_bind E_bind !big_cons.
rewrite (@eq_E _ _ _ (fun a => (G a + (\sum_(i <- ins) e i - A)) ^+ 2 + \sum_(i <- ins) v i)) => [|a]; last first.
  rewrite /= E_bind.
  transitivity (E (chains ins) (fun out => (\sum_(a <- out.2) G a - (A - G a)) ^+ 2)).
    by apply: eq_E => -[u l]; rewrite /= big_cons; congr (_ ^+ 2); rewrite opprB addrCA addrA.
  by rewrite IH //; congr (_ ^+ 2 + _); rewrite opprB addrCA.
by rewrite E_add E_const // E_square // -!addrA.
Qed.
End Sums.

(** ** Pairwise independent draws *)
Lemma sum_iota_const M (c : R) : \sum_(i <- iota 0 M) c = M%:R * c.
Proof. by rewrite big_const_seq count_predT size_iota iter_addr_0 [RHS]mulr_natl. Qed.

Lemma pairwise_square (Z : Type) (mean : (Z -> R) -> R) M (p : prog (nat -> Z)) (h : Z -> R) :
  pairwise_draws mean M p -> mean h = 0 ->
  E p (fun z => (\sum_(i <- iota 0 M) h (z i)) ^+ 2) = M%:R * mean (fun z => h z ^+ 2).
Proof.
move=> [pp p1 p2] h0.
rewrite (@eq_E _ _ _ (fun z => \sum_(i <- iota 0 M) \sum_(j <- iota 0 M) h (z i) * h (z j))) => [|z]; last first.
  by rewrite expr2 mulr_suml; apply: eq_bigr => i _; rewrite mulr_sumr.
rewrite E_sum (eq_big_seq (fun=> mean (fun z => h z ^+ 2))) => [|i]; last first.
  rewrite mem_iota add0n => /andP[_ iM]; rewrite E_sum (bigD1_seq i) ?iota_uniq ?mem_iota //=.
  rewrite -[RHS]addr0; congr (_ + _); first by rewrite -(p1 i) //; apply: eq_E => z; rewrite expr2.
  rewrite big_seq_cond big1 // => j /andP[]; rewrite mem_iota add0n => /andP[_ jM] ji.
  by rewrite p2 1?eq_sym // h0 mul0r.
exact: sum_iota_const.
Qed.

(** ** The experiment *)
Section Experiment.
Variables (D : Type) (X : finType) (S : Type) (dx m : nat) (coord : X -> 'I_dx -> R) (path : S -> seq X) (x : X).
Variables (get_data : key -> prog D) (draws : key -> D -> prog (nat -> seq X)) (start : D -> seq X -> S).
Variables (kern : D -> key -> S -> prog S) (target : D -> X -> seq X -> R) (M : nat).
Local Notation law d key := (fun xs => do r <- kern d key (start d xs); Ret (path r)).
Hypotheses (dataP : forall key, proper (get_data key))
  (drawsP : forall key d, pairwise_draws (path_mean m (target d)) M (draws key d))
  (drawsS : forall key d, always (fun xs => forall i, size (xs i) = m.+1) (draws key d))
  (kernP : forall d key xs, size xs = m.+1 -> proper (kern d key (start d xs)))
  (startP : forall d xs, path (start d xs) = xs)
  (kernS : forall d key xs, size xs = m.+1 -> always (fun r => size (path r) = m.+1) (kern d key (start d xs)))
  (kernF : forall d key key' xs f, size xs = m.+1 -> E (law d key xs) f = E (law d key' xs) f).

Local Notation rows d key := (fun xs : nat -> seq X =>
  scan (fun (_ : unit) i => do r <- esjd coord path kern d (split key i) (start d (xs i)); Ret (tt, r)) tt (iota 0 M)).
Local Notation given d key := (do xs <- draws (split key 1) d; do out <- rows d (split key 2) xs; Ret out.2).

Lemma esjd_proper d key xs : size xs = m.+1 -> proper (esjd coord path kern d key (start d xs)).
Proof. by move=> sx; apply: proper_bind => //; exact: kernP. Qed.

Lemma rows_proper d key xs : (forall i, size (xs i) = m.+1) ->
  all_proper (fun i => esjd coord path kern d (split key i) (start d (xs i))) (iota 0 M).
Proof. by move=> sx; elim: (iota 0 M) => //= i l IH; split=> //; exact: esjd_proper. Qed.

Lemma given_proper d key : proper (given d key).
Proof.
apply: proper_bind_always; first by have [] := drawsP (split key 1) d.
by apply: always_imp (drawsS _ d) => xs sx; apply: proper_bind => //; apply: chains_proper; exact: rows_proper.
Qed.

Lemma one_given (gd : Prog.key -> prog D) key F :
  E (lg_one_experiment gd (fun key data => do xs <- draws key data; Ret (fun i => start data (xs i))) (esjd coord path kern) key M)
    (fun out => F out.2) = E (gd (split key 0)) (fun d => E (given d key) F).
Proof.
rewrite /lg_one_experiment E_bind; apply: eq_E => d; rewrite !E_bind; apply: eq_E => xs.
by rewrite E_bind.
Qed.

Lemma run_given (gd : Prog.key -> prog D) key K k (F : (nat -> R) -> R) : (forall key, proper (gd key)) -> (k < K)%N ->
  E (lg_esjd_run coord path gd draws start kern key K M) (fun out => nth 0 [seq F r | r <- out] k)
  = E (gd (split (split key k) 0)) (fun d => E (given d (split key k)) (fun out => F (mean_rows out))).
Proof.
move=> gdP kK; rewrite /lg_esjd_run E_bind.
rewrite (@eq_E _ _ _ (fun out => nth 0 [seq F (mean_rows o) | o <- out.2] k)) => [|out]; last by rewrite /= -map_comp.
rewrite /lg_experiment.
pose one i := do r <- lg_one_experiment gd (fun key data => do xs <- draws key data; Ret (fun i => start data (xs i)))
  (esjd coord path kern) (split key i) M; Ret r.2.
transitivity (E (scan (fun (_ : unit) i => do r <- one i; Ret (tt, r)) tt (iota 0 K))
    (fun out => nth 0 [seq F (mean_rows o) | o <- out.2] k)).
  congr E; elim: (iota 0 K) => //= i l IH; rewrite !bind_assoc; apply: eq_bind => r /=.
  by rewrite IH.
rewrite (chains_nth 0%N) ?size_iota //; last first.
  elim: (iota 0 K) => //= i l IH; split=> //; apply: proper_bind => //.
  apply: proper_bind => // d; apply: proper_bind_always.
    by apply: proper_bind => //; have [] := drawsP (split (split key i) 1) d.
  rewrite always_bind; apply: always_imp (drawsS _ d) => xs sx /=; apply: chains_proper; exact: rows_proper.
rewrite nth_iota // add0n /one E_bind.
exact: (one_given gd (split key k) (fun out => F (mean_rows out))).
Qed.

Lemma rows_size d key xs : always (fun out => size out.2 = M) (rows d key xs).
Proof. by have := @scan_size _ _ _ (fun (_ : unit) i => do r <- esjd coord path kern d (split key i) (start d (xs i)); Ret (tt, r)) (iota 0 M) tt; rewrite size_iota. Qed.

Variables (d : D) (t : nat) (key0 : Prog.key).
Hypothesis tm : (t < m.+1)%N.
Local Notation J := (jump_mean m (target d) coord x (law d key0) t).
Local Notation g := (fun row : seq R => nth 0 row t).

Lemma esjdE key xs (F : R -> R) : size xs = m.+1 ->
  E (esjd coord path kern d key (start d xs)) (fun row => F (g row))
  = E (law d key0 xs) (fun ys => F (\sum_i (coord (nth x xs t) i - coord (nth x ys t) i) ^+ 2)).
Proof.
move=> sx; rewrite -(kernF d key) // !E_bind; apply: eq_E_always.
apply: always_imp (kernS d key sx) => r sr /=.
rewrite startP (nth_map (x, x)) ?size_zip ?sx ?sr ?minnn // nth_zip ?sx ?sr //.
Qed.

Lemma given_mean key : (0 < M)%N -> E (given d key) (fun out => mean_rows out t) = J.
Proof.
move=> M0; have [_ p1 _] := drawsP (split key 1) d; rewrite E_bind.
transitivity (E (draws (split key 1) d) (fun xs => \sum_(i <- iota 0 M) M%:R^-1 *
    E (law d key0 (xs i)) (fun ys => \sum_j (coord (nth x (xs i) t) j - coord (nth x ys t) j) ^+ 2))).
  apply: eq_E_always; apply: always_imp (drawsS _ d) => xs sx; rewrite E_bind.
  transitivity (E (rows d (split key 2) xs) (fun out => M%:R^-1 * \sum_(a <- out.2) g a)).
    apply: eq_E_always; apply: always_imp (rows_size d (split key 2) xs) => out so.
    by rewrite /= /mean_rows /average so mulrC.
  rewrite E_scale chains_sum; last exact: rows_proper.
  by rewrite mulr_sumr; apply: eq_bigr => i _; rewrite (esjdE _ id).
rewrite E_sum (eq_big_seq (fun=> M%:R^-1 * J)) => [|i]; last first.
  rewrite mem_iota add0n => /andP[_ iM]; rewrite E_scale; congr (_ * _).
  exact: (p1 i (fun xs => E (law d key0 xs) (fun ys => \sum_j (coord (nth x xs t) j - coord (nth x ys t) j) ^+ 2))).
by rewrite sum_iota_const mulrA divff ?mul1r // pnatr_eq0 -lt0n.
Qed.

Lemma given_error key : (0 < M)%N ->
  E (given d key) (fun out => (mean_rows out t - J) ^+ 2) = jump_variance m (target d) coord x (law d key0) t / M%:R.
Proof.
move=> M0; have dP := drawsP (split key 1) d; have [_ p1 _] := dP; rewrite E_bind.
have Mn : (M%:R : R) != 0 by rewrite pnatr_eq0 -lt0n.
pose q xs ys : R := \sum_j (coord (nth x xs t) j - coord (nth x ys t) j) ^+ 2.
pose ee xs := E (law d key0 xs) (q xs).
pose vv xs := E (law d key0 xs) (fun ys => (q xs ys - ee xs) ^+ 2).
transitivity (E (draws (split key 1) d) (fun xs => M%:R^-1 ^+ 2 * ((\sum_(i <- iota 0 M) (ee (xs i) - J)) ^+ 2
    + \sum_(i <- iota 0 M) vv (xs i)))).
  apply: eq_E_always; apply: always_imp (drawsS _ d) => xs sx; rewrite E_bind.
  transitivity (E (rows d (split key 2) xs) (fun out => M%:R^-1 ^+ 2 * (\sum_(a <- out.2) g a - M%:R * J) ^+ 2)).
    apply: eq_E_always; apply: always_imp (rows_size d (split key 2) xs) => out so.
    rewrite /= /mean_rows /average so -exprMn; congr (_ ^+ 2).
    by rewrite mulrBr mulrA mulVf // mul1r mulrC.
  rewrite E_scale chains_square; last exact: rows_proper.
  congr (_ * (_ ^+ 2 + _)).
    rewrite sumrB sum_iota_const; congr (_ - _).
    by apply: eq_bigr => i _; rewrite (esjdE _ id).
  apply: eq_bigr => i _; rewrite (esjdE _ id) // -/(q _) -/(ee _).
  by rewrite (esjdE _ (fun a => (a - ee (xs i)) ^+ 2)).
rewrite E_scale E_add (@pairwise_square _ _ M _ (fun xs => ee xs - J) dP); last first.
  rewrite -(p1 0%N) // E_sub E_const ?(p1 0%N ee) //; last by case: dP.
  by rewrite subrr.
rewrite E_sum (eq_big_seq (fun=> path_mean m (target d) vv)) => [|i]; last first.
  by rewrite mem_iota add0n => /andP[_ iM]; exact: (p1 i vv).
rewrite sum_iota_const -mulrDr -mean_add mulrA.
rewrite (_ : M%:R^-1 ^+ 2 * M%:R = M%:R^-1); last by rewrite expr2 mulfVK.
rewrite mulrC; congr (_ / _); apply: mean_eq => xs sx.
rewrite /jump_mean /vv.
have pl : proper (law d key0 xs) by apply: proper_bind => //; exact: kernP.
exact: esym (@E_square _ (q xs) _ (- J) pl).
Qed.
End Experiment.
