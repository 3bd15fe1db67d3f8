(** * StepSizesProofs: proofs for C83 and C84. *)
From Coq Require Import Reals Lra.
From mathcomp Require Import all_ssreflect all_algebra.
From Verif Require Import RInst Prog Resampling KillingProofs Experiments StepSizes StepSizesSpec.

Set Implicit Arguments.
Unset Strict Implicit.
Unset Printing Implicit Defensive.
Import GRing.Theory Num.Theory Order.TTheory.
Local Open Scope ring_scope.

(** ** The logarithm *)
Lemma greatest_amax n (arr : 'I_n.+1 -> R) m : greatest arr m -> amax arr = m.
Proof.
case=> h [j jm]; apply/eqP; rewrite eq_le; apply/andP; split; first exact: amax_le.
by rewrite -jm; exact: le_amax.
Qed.

Lemma exp_lt_iff (x y : R) : (exp x < exp y) <-> (x < y).
Proof.
split=> h; apply/RltE; last by apply: exp_increasing; exact/RltE.
by apply: exp_lt_inv; exact/RltE.
Qed.

Lemma expR0 : exp 0 = 1 :> R.
Proof. exact: exp_0. Qed.

Lemma exp_lt1 (x : R) : x < 0 -> exp x < 1.
Proof. by move=> h; rewrite -expR0; apply/exp_lt_iff. Qed.

Lemma log_at_max n (arr : 'I_n.+1 -> R) m i : greatest arr m -> arr i = m -> log_1_m_exp arr i = None.
Proof.
move=> g e; rewrite /log_1_m_exp (greatest_amax g) e subrr /jnp_log.
by rewrite expR0 subrr oppr0 ltxx.
Qed.

Lemma log_below n (arr : 'I_n.+1 -> R) m i : greatest arr m -> arr i < m ->
  log_1_m_exp arr i = Some (ln (exp m - exp (arr i))).
Proof.
move=> g lt; rewrite /log_1_m_exp (greatest_amax g) /jnp_log.
have key (x y : R) : x < y -> (0 < - (exp (x - y) - 1)) /\ ln (- (exp (x - y) - 1)) + y = ln (exp y - exp x).
  move=> xy; have h : exp (x - y) < 1 by apply: exp_lt1; rewrite subr_lt0.
  have p : 0 < - (exp (x - y) - 1) by rewrite oppr_gt0 subr_lt0.
  split=> //; rewrite -{2}(ln_exp y).
  have -> : exp y - exp x = (- (exp (x - y) - 1)) * exp y :> R.
    rewrite mulNr mulrBl mul1r opprB; congr (_ - _).
    by rewrite -[LHS](congr1 exp (subrK y x)); exact: exp_plus.
  by symmetry; apply: ln_mult; [exact/RltE|exact: exp_pos].
by have [p e] := key _ _ lt; rewrite p /= e.
Qed.

Lemma log_iff n (arr : 'I_n.+1 -> R) m i : greatest arr m -> arr i < m -> arr i < 0 ->
  log_1_m_exp arr i = Some (ln (1 - exp (arr i))) <-> m = 0.
Proof.
move=> g lt neg; rewrite (log_below g lt); split=> [[e]|->]; last first.
  by rewrite expR0.
have p1 : 0 < exp m - exp (arr i) by rewrite subr_gt0; apply/exp_lt_iff.
have p2 : 0 < 1 - exp (arr i) by rewrite subr_gt0 exp_lt1.
have := ln_inv _ _ (proj1 (RltE _ _) p1) (proj1 (RltE _ _) p2) e => /addIr h.
by apply: exp_inv; rewrite h; symmetry; exact: exp_0.
Qed.

(** ** Powers *)
Lemma natR_gt0 n : (0 < n)%N -> (0 : R) < n%:R.
Proof. by rewrite ltr0n. Qed.

Lemma Rpower_gt0 (x y : R) : 0 < Rpower x y.
Proof. by apply/RltE; exact: exp_pos. Qed.

Lemma Rpower_exp (x y : R) n : Rpower x y ^+ n = Rpower x (n%:R * y).
Proof.
elim: n => [|n IH]; first by rewrite expr0 mul0r /Rpower -[LHS]expR0; congr exp; symmetry; exact: Rmult_0_l.
rewrite exprS IH; have -> : n.+1%:R * y = y + n%:R * y :> R by rewrite -addn1 natrD mulrDl mul1r addrC.
by symmetry; exact: Rpower_plus.
Qed.

Lemma Rpower_root n (k : nat) : (0 < n)%N -> (0 < k)%N -> Rpower n%:R (1 / k%:R) ^+ k = n%:R.
Proof.
move=> n0 k0; rewrite Rpower_exp mul1r divff ?pnatr_eq0 -?lt0n //.
by apply: Rpower_1; exact/RltE/natR_gt0.
Qed.

Lemma py_pow_pos n s : (0 < n)%N -> py_pow n s = Some (Rpower n%:R s).
Proof. by rewrite /py_pow; case: n. Qed.

Lemma py_div_pos x n s : (0 < n)%N -> py_div x (py_pow n s) = Some (x / Rpower n%:R s).
Proof. by move=> n0; rewrite py_pow_pos //= (gt_eqF (Rpower_gt0 _ _)). Qed.

(** The number whose power divides. *)
Definition block (a : darg) (D T : nat) : nat :=
  match a with arg_D => D | arg_T => T | arg_DT | arg_TD => (D * T)%N | arg_other => 1%N end.

Lemma Rpower_1l s : Rpower 1 s = 1.
Proof. by rewrite /Rpower -[RHS]expR0; congr exp; rewrite ln_1; exact: Rmult_0_r. Qed.

Lemma DELTA_block a delta s D T : (0 < block a D T)%N -> DELTA a delta s D T = Some (delta / Rpower (block a D T)%:R s).
Proof. by case: a => //= h; rewrite ?py_div_pos // Rpower_1l divr1. Qed.

Lemma delta_fails a delta s D T : 0 < s -> (DELTA a delta s D T = None <-> block a D T = 0%N).
Proof.
move=> s0; split=> [|e].
  by case e: (block a D T) => [|n] //; rewrite DELTA_block ?e.
by move: e; case: a => //= ->; rewrite /py_pow eqxx s0 /= eqxx.
Qed.

Lemma delta_law a delta s D T d : 0 < delta -> (0 < block a D T)%N -> DELTA a delta s D T = Some d ->
  0 < d /\ d * Rpower (block a D T)%:R s = delta.
Proof.
move=> dp b0; rewrite DELTA_block // => -[<-]; split; first by rewrite divr_gt0 ?Rpower_gt0.
by rewrite divfK // gt_eqF ?Rpower_gt0.
Qed.

Lemma Rpower_mono (x y s : R) : 0 < x -> x <= y -> 0 <= s -> Rpower x s <= Rpower y s.
Proof.
by move=> x0 xy s0; apply/RleE; apply: Rle_Rpower_l; [exact/RleE|split; [exact/RltE|exact/RleE]].
Qed.

Lemma delta_mono a delta s D T D' T' d d' : 0 <= delta -> 0 <= s -> (0 < D <= D')%N -> (0 < T <= T')%N ->
  DELTA a delta s D T = Some d -> DELTA a delta s D' T' = Some d' -> d' <= d.
Proof.
move=> dp s0 /andP [D0 DD] /andP [T0 TT].
have b0 : (0 < block a D T)%N by case: a => //=; rewrite muln_gt0 D0.
have bb : (block a D T <= block a D' T')%N by case: a {b0} => //=; exact: leq_mul.
rewrite !DELTA_block // ?(leq_trans b0 bb) // => -[<-] [<-].
by rewrite ler_wpmul2l // lef_pinv ?posrE ?Rpower_gt0 // Rpower_mono ?natR_gt0 // ler_nat.
Qed.

(** ** The rows of the grid *)
Definition row_ok (r : kernel_type * style * nat * delta_arg) : bool :=
  let: (k, s, sc, a) := r in
  if lg_kernel_maker k s is Some i then
    [&& sc \in [:: 1; 3]%N, (a == a_TD) == whole_path i,
        (uses_gradient i) ==> ((k, s, 3%N, a) \in lg_rows), (~~ uses_gradient i) ==> (sc == 1%N) &
        if wants_array i is Some b then b == shape_delta k else true]
  else false.
Lemma rows_ok : all row_ok lg_rows. Proof. by vm_compute. Qed.

Lemma shaped_nseq (x : R) T : map (fun one => x * one) (nseq T 1) = nseq T x.
Proof. by elim: T => //= T ->; rewrite mulr1. Qed.

Lemma row_delta k s sc a D T : (k, s, sc, a) \in lg_rows -> (0 < D)%N -> (0 < T)%N ->
  exists i (d : R), [/\ lg_kernel_maker k s = Some i, 0 < d, d ^+ sc * (if whole_path i then D * T else D)%N%:R = 1,
    run_delta (k, s, sc, a) D T = Some (if shape_delta k then Array (nseq T d) else Number d) &
    wants_array i = None \/ wants_array i = Some (shape_delta k)].
Proof.
move=> r D0 T0; have /= := allP rows_ok _ r; case mk: lg_kernel_maker => [i|] // /and5P [scs /eqP ea _ _ w].
have sc0 : (0 < sc)%N by move: scs; rewrite !inE => /orP [] /eqP ->.
pose n := block (darg_of a) D T.
have n0 : (0 < n)%N by rewrite /n; case: (a) => //=; rewrite muln_gt0 D0.
have nE : n = (if whole_path i then D * T else D)%N by rewrite -ea /n; case: (a).
exists i, (1 / Rpower n%:R (1 / sc%:R)); split=> //.
- by rewrite divr_gt0 ?Rpower_gt0 ?ltr01.
- by rewrite -nE exprMn expr1n exprVn Rpower_root // mul1r mulVf // pnatr_eq0 -lt0n.
- by rewrite /run_delta DELTA_block //= /shaped_delta shaped_nseq.
- by move: w; case: wants_array => [b /eqP ->|]; [right|left].
Qed.

Lemma row_scale k s sc a i : (k, s, sc, a) \in lg_rows -> lg_kernel_maker k s = Some i ->
  if uses_gradient i then (sc = 1%N \/ sc = 3%N) /\ (k, s, 3%N, a) \in lg_rows else sc = 1%N.
Proof.
move=> r mk; have /= := allP rows_ok _ r; rewrite mk => /and5P [scs _ g h _].
move: g h; case: uses_gradient => /= [g _|_ /eqP //]; split=> //.
by move: scs; rewrite !inE => /orP [] /eqP ->; [left|right].
Qed.

Lemma sigma_law lv : 0 < SIGMA lv /\ ln (SIGMA lv ^+ 2) = lv * ln 10%:R.
Proof.
split; first exact: Rpower_gt0.
rewrite /SIGMA Rpower_exp /Rpower ln_exp; congr (_ * _).
by rewrite mulrC divfK // pnatr_eq0.
Qed.

(** ** Grids *)
Lemma mem_product (A B : eqType) (s : seq A) (t : seq B) a b : ((a, b) \in product s t) = (a \in s) && (b \in t).
Proof. by apply/allpairsP/andP => [[[x y] /= [xs yt [-> ->]]]|[aS bT]]; [|exists (a, b)]. Qed.

Lemma uniq_product (A B : eqType) (s : seq A) (t : seq B) : uniq s -> uniq t -> uniq (product s t).
Proof. by move=> us ut; apply: allpairs_uniq => // -[a b] [a' b'] _ _ /= ->. Qed.

Lemma rows_uniq : uniq lg_rows. Proof. by vm_compute. Qed.

Lemma lg_file_inj : injective lg_file.
Proof. by move=> [[[lv T] D] [[[k s] sc] a]] [[[lv' T'] D'] [[[k' s'] sc'] a']] /= [-> -> -> -> -> -> ->]. Qed.

Lemma grid_files lvs Ts Ds : uniq lvs -> uniq Ts -> uniq Ds -> uniq (map lg_file (lg_grid lvs Ts Ds)).
Proof.
by move=> a b c; rewrite map_inj_uniq; [rewrite /lg_grid !uniq_product ?rows_uniq|exact: lg_file_inj].
Qed.

Lemma grid_mem lvs Ts Ds lv T D r : (lv, T, D, r) \in lg_grid lvs Ts Ds = [&& lv \in lvs, T \in Ts, D \in Ds & r \in lg_rows].
Proof. by rewrite /lg_grid !mem_product -!andbA. Qed.

(** ** Statements for the property file *)
Lemma div_iff (x y d : R) : 0 < y -> Some (x / y) = Some d <-> d * y = x.
Proof. by move=> y0; have n0 := lt0r_neq0 y0; split=> [[<-]|<-]; rewrite ?divfK ?mulfK. Qed.

Lemma delta_iff (delta s d : R) D T : (0 < D)%N -> (0 < T)%N ->
  [/\ DELTA arg_D delta s D T = Some d <-> d * Rpower D%:R s = delta,
      DELTA arg_T delta s D T = Some d <-> d * Rpower T%:R s = delta,
      DELTA arg_DT delta s D T = Some d <-> d * Rpower (D%:R * T%:R) s = delta,
      DELTA arg_TD delta s D T = Some d <-> d * Rpower (D%:R * T%:R) s = delta &
      DELTA arg_other delta s D T = Some d <-> d = delta].
Proof.
move=> D0 T0; have DT : (0 < D * T)%N by rewrite muln_gt0 D0.
rewrite -natrM; split; try by rewrite DELTA_block //; apply: div_iff; exact: Rpower_gt0.
by split=> [[<-]|->].
Qed.

Lemma delta_none (delta s : R) D T : 0 < s ->
  [/\ DELTA arg_D delta s D T = None <-> D = 0%N, DELTA arg_T delta s D T = None <-> T = 0%N,
      DELTA arg_DT delta s D T = None <-> D = 0%N \/ T = 0%N,
      DELTA arg_TD delta s D T = None <-> D = 0%N \/ T = 0%N & DELTA arg_other delta s D T <> None].
Proof.
move=> s0; have h : (D * T = 0)%N <-> D = 0%N \/ T = 0%N.
  by split=> [/eqP|[->|->]]; rewrite ?muln0 // muln_eq0 => /orP [/eqP|/eqP]; [left|right].
by split=> //; try exact: (delta_fails _ _ _ _ s0); apply: (iff_trans (delta_fails _ _ _ _ s0)).
Qed.

Lemma grid_runs lvs Ts Ds lv T D k s sc a : all (ltn 0%N) Ts -> all (ltn 0%N) Ds ->
  (lv, T, D, (k, s, sc, a)) \in lg_grid lvs Ts Ds ->
  exists i (d : R), [/\ lg_kernel_maker k s = Some i, 0 < d, d ^+ sc * (if whole_path i then D * T else D)%N%:R = 1,
    run_delta (k, s, sc, a) D T = Some (if shape_delta k then Array (nseq T d) else Number d) &
    wants_array i = None \/ wants_array i = Some (shape_delta k)].
Proof.
move=> /allP pT /allP pD; rewrite grid_mem => /and4P [_ tT dD r].
by apply: row_delta r _ _; [exact: pD|exact: pT].
Qed.

Lemma combination_3 : lg_combination = lg_grid lg_LOG_SIGMAS [:: 10%N] [:: 10%N].
Proof. by []. Qed.

Lemma no_scale : exists n (arr : 'I_n.+1 -> R) i, arr i < 0 /\ log_1_m_exp arr i <> Some (ln (1 - exp (arr i))).
Proof.
exists 0%N, (fun _ => -1), ord0; split; first by rewrite ltrN10.
have g : greatest (fun _ : 'I_1 => -1 : R) (-1) by split=> //; exists ord0.
by rewrite (log_at_max g).
Qed.
