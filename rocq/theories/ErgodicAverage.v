(** * ErgodicAverage: averages along a chain on a finite set that forgets its start geometrically. *)
From Coq Require Import Reals Lra.
From mathcomp Require Import all_ssreflect all_algebra.
From Verif Require Import RInst Prog ProgTheory Spec ErgodicSpec ErgodicTheory.

Set Implicit Arguments.
Unset Strict Implicit.
Unset Printing Implicit Defensive.
Import GRing.Theory Num.Theory Order.TTheory.
Local Open Scope ring_scope.

Section Average.
Variables (Y : finType) (p : Y -> Y -> R).
Hypotheses (p0 : forall y z, 0 <= p y z) (p1 : forall y, \sum_z p y z = 1).

(** Mean of a function of the [t] states after [y]. *)
Fixpoint along (t : nat) (F : seq Y -> R) (y : Y) : R :=
  if t is t'.+1 then \sum_z p y z * along t' (fun l => F (z :: l)) z else F [::].

Lemma eq_along t F G y : F =1 G -> along t F y = along t G y.
Proof.
elim: t F G y => [|t IH] F G y e //=; apply: eq_bigr => z _; congr (_ * _); by apply: IH => l.
Qed.

Lemma eq_along_size t F G y : (forall l, size l = t -> F l = G l) -> along t F y = along t G y.
Proof.
elim: t F G y => [|t IH] F G y e /=; first exact: e.
by apply: eq_bigr => z _; congr (_ * _); apply: IH => l sl; apply: e; rewrite /= sl.
Qed.

Lemma along_ge0 t F y : (forall l, 0 <= F l) -> 0 <= along t F y.
Proof.
elim: t F y => [|t IH] F y F0 //=; apply: sumr_ge0 => z _; apply: mulr_ge0 => //; exact: IH.
Qed.

Lemma along_add t F G y : along t (fun l => F l + G l) y = along t F y + along t G y.
Proof.
elim: t F G y => [|t IH] F G y //=; rewrite -big_split /=; apply: eq_bigr => z _.
by rewrite -mulrDr (IH (fun l => F (z :: l)) (fun l => G (z :: l))).
Qed.

Lemma along_scale t a F y : along t (fun l => a * F l) y = a * along t F y.
Proof.
elim: t F y => [|t IH] F y //=; rewrite mulr_sumr; apply: eq_bigr => z _.
by rewrite (IH (fun l => F (z :: l))) mulrCA.
Qed.

Lemma along_const t a y : along t (fun=> a) y = a.
Proof. by elim: t y => [|t IH] y //=; under eq_bigr do rewrite IH; rewrite -mulr_suml p1 mul1r. Qed.

Variables (g : Y -> R) (c e b : R).
Hypotheses (c0 : 0 <= c) (e01 : 0 < e <= 1) (b0 : 0 <= b).
Hypothesis gc : forall y, `|g y| <= 2%:R * c.
Hypothesis gm : forall t y, `|iter t (pstep p) g y| <= 2%:R * c * (1 - e) ^+ t + b.

Definition total_of (bits : bitseq) (l : seq Y) : R := \sum_(z <- mask bits l) g z.
Definition first (bits : bitseq) (y : Y) : R := along (size bits) (total_of bits) y.
Definition second (bits : bitseq) (y : Y) : R := along (size bits) (fun l => total_of bits l ^+ 2) y.

Lemma total_cons u bits z l : total_of (u :: bits) (z :: l) = u%:R * g z + total_of bits l.
Proof. by rewrite /total_of; case: u; rewrite /= ?big_cons ?mul1r ?mul0r ?add0r. Qed.

Lemma first_cons u bits y : first (u :: bits) y = pstep p (fun z => u%:R * g z + first bits z) y.
Proof.
rewrite /first /pstep /=; apply: eq_bigr => z _; congr (_ * _).
rewrite -[X in _ = X + _](along_const (size bits) _ z) -along_add.
by apply: eq_along => l; rewrite total_cons.
Qed.

Lemma second_cons u bits y :
  second (u :: bits) y = pstep p (fun z => (u%:R * g z) ^+ 2 + 2%:R * (u%:R * g z) * first bits z + second bits z) y.
Proof.
rewrite /second /pstep /=; apply: eq_bigr => z _; congr (_ * _).
rewrite -[X in _ = X + _ + _](along_const (size bits) _ z) -along_scale -!along_add.
by apply: eq_along => l; rewrite total_cons !expr2 mulr2n; Rring.
Qed.

Lemma firstE bits y : first bits y = \sum_(j < size bits) (nth false bits j)%:R * iter j.+1 (pstep p) g y.
Proof.
elim: bits y => [|u bits IH] y; first by rewrite big_ord0 /first /= /total_of big_nil.
rewrite first_cons big_ord_recl /= /pstep.
under eq_bigr => z _ do rewrite mulrDr IH.
rewrite big_split /=; congr (_ + _); first by rewrite mulr_sumr; apply: eq_bigr => z _; rewrite mulrCA.
under eq_bigr do rewrite mulr_sumr.
rewrite exchange_big /=; apply: eq_bigr => j _; rewrite mulr_sumr; apply: eq_bigr => z _.
by rewrite mulrCA.
Qed.

Lemma first_le bits y : `|first bits y| <= 2%:R * c / e + (count id bits)%:R * b.
Proof.
have [e_gt0 e_le1] := andP e01.
rewrite firstE; apply: le_trans (ler_norm_sum _ _ _) _.
apply: le_trans (_ : \sum_(j < size bits) (2%:R * c * (1 - e) ^+ j.+1 + (nth false bits j)%:R * b) <= _).
  apply: ler_sum => j _; rewrite normrM; case: (nth false bits j); rewrite ?normr1 ?mul1r ?normr0 ?mul0r ?addr0.
    exact: gm.
  by rewrite mulr_ge0 ?mulr_ge0 ?ler0n // exprn_ge0 // subr_ge0.
rewrite big_split /= -mulr_suml -mulr_sumr; apply: ler_add; last first.
  apply: ler_wpmul2r => //; rewrite le_eqVlt; apply/orP; left; apply/eqP.
  elim: bits => [|u bits IH]; first by rewrite big_ord0.
  by rewrite big_ord_recl /= natrD IH.
apply: ler_wpmul2l; first by rewrite mulr_ge0 ?ler0n.
rewrite -[X in _ <= X]mul1r ler_pdivl_mulr //.
have -> : (\sum_(j < size bits) (1 - e) ^+ j.+1) * e = (1 - e) - (1 - e) ^+ (size bits).+1.
  elim: (size bits) => [|t IH]; first by rewrite big_ord0 mul0r expr1 subrr.
  by rewrite big_ord_recr /= mulrDl IH [(1 - e) ^+ t.+2]exprS; Rring.
by rewrite ler_subl_addr; apply: ler_paddr; [apply: exprn_ge0; rewrite subr_ge0|rewrite ler_subl_addr ler_addl ltW].
Qed.

Lemma second_le bits y (B : R) : 2%:R * c / e + (count id bits)%:R * b <= B ->
  second bits y <= (count id bits)%:R * (4%:R * c ^+ 2 + 4%:R * c * B).
Proof.
elim: bits y => [|u bits IH] y hB; first by rewrite /second /= /total_of big_nil expr0n /= mul0r.
rewrite second_cons /pstep.
have hB' : 2%:R * c / e + (count id bits)%:R * b <= B.
  by apply: le_trans hB; rewrite ler_add2l; apply: ler_wpmul2r => //; rewrite ler_nat /= leq_addl.
apply: le_trans (_ : \sum_z p y z * ((count id (u :: bits))%:R * (4%:R * c ^+ 2 + 4%:R * c * B)) <= _); last first.
  by rewrite -mulr_suml p1 mul1r.
apply: ler_sum => z _; apply: ler_wpmul2l => //=; rewrite natrD mulrDl; apply: ler_add; last exact: IH.
case: u {hB} => /=; last by rewrite !mul0r !(expr0n, mulr0, mul0r) addr0.
rewrite !mul1r; apply: ler_add.
  rewrite -[g z ^+ 2](@ger0_norm _ (g z ^+ 2)) ?sqr_ge0 // normrX.
  have -> : 4%:R * c ^+ 2 = (2%:R * c) ^+ 2 by rewrite exprMn -natrX.
  by apply: ler_expn2r; rewrite ?nnegrE ?normr_ge0 // mulr_ge0 ?ler0n.
apply: le_trans (ler_norm _) _; rewrite !normrM (ger0_norm (ler0n _ 2)).
have -> : 4%:R * c = 2%:R * (2%:R * c) :> R by rewrite mulrA -natrM.
apply: ler_pmul; rewrite ?mulr_ge0 ?normr_ge0 ?ler0n //; first by apply: ler_wpmul2l; rewrite ?ler0n.
exact: le_trans (first_le _ _) hB'.
Qed.

Lemma mean_square bits y : (0 < count id bits)%N ->
  along (size bits) (fun l => (total_of bits l / (count id bits)%:R) ^+ 2) y
  <= 4%:R * c ^+ 2 * (1 + 2%:R / e) / (count id bits)%:R + 4%:R * c * b.
Proof.
move=> n0; pose N : R := (count id bits)%:R.
have N0 : 0 < N by rewrite ltr0n.
rewrite (@eq_along _ _ (fun l => N^-1 ^+ 2 * total_of bits l ^+ 2)); last by move=> l; rewrite exprMn mulrC.
rewrite along_scale -/(second bits y).
apply: le_trans (_ : N^-1 ^+ 2 * (N * (4%:R * c ^+ 2 + 4%:R * c * (2%:R * c / e + N * b))) <= _).
  by apply: ler_wpmul2l; [exact: sqr_ge0|exact: second_le].
rewrite le_eqVlt; apply/orP; left; apply/eqP.
have e_neq : e != 0 by rewrite gt_eqF //; case/andP: e01.
have N_neq : N != 0 by rewrite gt_eqF.
have -> : N^-1 ^+ 2 * (N * (4%:R * c ^+ 2 + 4%:R * c * (2%:R * c / e + N * b)))
  = (4%:R * c ^+ 2 + 4%:R * c * (2%:R * c / e)) / N + 4%:R * c * b * (N * N^-1) ^+ 2 + 
    (4%:R * c ^+ 2 + 4%:R * c * (2%:R * c / e)) / N * (N * N^-1 - 1).
  by rewrite !expr2; move: (N^-1) (e^-1) (4%:R : R) (2%:R : R) => u v w x; Rring.
rewrite divff // subrr mulr0 addr0 expr1n mulr1; congr (_ / N + _).
by rewrite expr2; move: (4%:R : R) (2%:R : R) (e^-1) => x w v; Rring.
Qed.
End Average.
