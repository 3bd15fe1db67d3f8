(** * TablesProofs: proofs for C81. *)
From Coq Require Import Reals Lra.
From mathcomp Require Import all_ssreflect all_algebra.
From Verif Require Import RInst Experiments Tables TablesSpec.

Set Implicit Arguments.
Unset Strict Implicit.
Unset Printing Implicit Defensive.
Import GRing.Theory Num.Theory Order.TTheory.
Local Open Scope ring_scope.

(** ** Row-major order *)
Lemma zip_cat_eq (A B : Type) (s1 s2 : seq A) (t1 t2 : seq B) : size s1 = size t1 ->
  zip (s1 ++ s2) (t1 ++ t2) = zip s1 t1 ++ zip s2 t2.
Proof. exact: zip_cat. Qed.

Lemma size_product (A B : Type) (s : seq A) (t : seq B) : size (product s t) = (size s * size t)%N.
Proof. by rewrite /product size_allpairs. Qed.

Lemma size_flatten_const (A : eqType) (a : seq (seq A)) k : (forall r, r \in a -> size r = k) ->
  size (flatten a) = (size a * k)%N.
Proof.
elim: a => //= r a IH h; rewrite size_cat IH => [|s sa]; last by apply: h; rewrite inE sa orbT.
by rewrite h ?mem_head // mulSn.
Qed.

Lemma zip_product (A B C : eqType) (I : seq A) (J : seq B) (a : seq (seq C)) i j v :
  size a = size I -> (forall r, r \in a -> size r = size J) ->
  ((i, j), v) \in zip (product I J) (flatten a) <-> exists2 r, (i, r) \in zip I a & (j, v) \in zip J r.
Proof.
elim: I a => [|i0 I IH] [|r0 a] //=; first by move=> _ _; split=> [|[]].
move=> [sa] h.
have hr : size r0 = size J by apply: h; rewrite mem_head.
rewrite /product /= zip_cat ?size_map ?hr // mem_cat.
have IH' := IH a sa (fun r ra => h r (introT orP (or_intror ra))).
have e : ((i, j), v) \in zip [seq (i0, b) | b <- J] r0 <-> i = i0 /\ (j, v) \in zip J r0.
  elim: J r0 hr {h IH IH'} => [|j0 J IHJ] [|c r0] //=; first by move=> _; split=> [|[]].
  move=> [hr].
  rewrite !inE; split.
    case/orP=> [/eqP[-> -> ->]|/(IHJ _ hr)[-> h]]; first by rewrite eqxx.
    by rewrite h orbT.
  case=> ei /orP[/eqP[-> ->]|h]; first by rewrite ei eqxx.
  by apply/orP; right; apply/(IHJ _ hr).
split.
  case/orP=> [/e[-> h1]|/IH'[r h1 h2]]; first by exists r0 => //; rewrite mem_head.
  by exists r => //; rewrite inE h1 orbT.
case=> r; rewrite inE => /orP[/eqP[ei er] h1|h1 h2]; first by apply/orP; left; apply/e; rewrite -er.
by apply/orP; right; apply/IH'; exists r.
Qed.

Lemma zip_iota (A : eqType) (x0 : A) (K : nat) (a : seq A) k v : size a = K ->
  (k, v) \in zip (iota 0 K) a <-> (k < K)%N /\ v = nth x0 a k.
Proof.
move=> sa; have sz : size (zip (iota 0 K) a) = K by rewrite size_zip size_iota sa minnn.
split.
  case/(nthP (0%N, x0)) => i; rewrite sz => iK; rewrite nth_zip ?size_iota // nth_iota // => -[<- <-].
  by rewrite add0n.
case=> kK ->; apply/(nthP (0%N, x0)); exists k; first by rewrite sz.
by rewrite nth_zip ?size_iota // nth_iota.
Qed.

Lemma mem_nthE (A : eqType) (x0 : A) (a : seq A) r : r \in a -> exists2 i, (i < size a)%N & r = nth x0 a i.
Proof. by case/(nthP x0) => i h <-; exists i. Qed.

Lemma uniq_product (A B : eqType) (s : seq A) (t : seq B) : uniq s -> uniq t -> uniq (product s t).
Proof. by move=> us ut; apply: allpairs_uniq => // [[a b] [c d]]. Qed.

Lemma iloc_shows (L : eqType) (index : seq L) (values : seq R) (dom : L -> Prop) (f : L -> R) :
  uniq index -> size values = size index -> (forall l v, (l, v) \in zip index values <-> dom l /\ v = f l) ->
  shows (iloc_all index values) dom f.
Proof.
move=> ui sv h; exists (zip index values); first by rewrite /iloc_all sv eqxx.
by split=> //; rewrite unzip1_zip ?sv.
Qed.

(** ** Arrays of two, three and four axes *)
Section Shapes.
Variables (k l m o : nat).

Lemma zip2 (A : eqType) (J : seq nat) (a : seq (seq A)) i j v : size J = l -> shape2 a k l ->
  ((i, j), v) \in zip (product (iota 0 k) J) (flatten a) <-> (i < k)%N /\ (j, v) \in zip J (nth [::] a i).
Proof.
move=> sJ [sa h]; rewrite zip_product ?size_iota //; last first.
  by move=> r /(mem_nthE [::])[i' h1 ->]; rewrite sJ; apply: h; rewrite -sa.
by split=> [[r /(zip_iota [::] _ _ sa)[h1 ->]]|[h1 h2]] //; exists (nth [::] a i) => //; apply/(zip_iota [::]).
Qed.

Lemma size2 (A : eqType) (a : seq (seq A)) : shape2 a k l -> size (flatten a) = (k * l)%N.
Proof.
move=> [sa h]; rewrite (@size_flatten_const _ _ l) ?sa // => r /(mem_nthE [::])[i h1 ->].
by apply: h; rewrite -sa.
Qed.

Lemma flat3 (A : eqType) (a : seq (seq (seq A))) : shape3 a k l m ->
  size (flatten a) = (k * l)%N /\ forall r, r \in flatten a -> size r = m.
Proof.
move=> [sa h]; split.
  by apply: size2; split=> // i ik; have [] := h i ik.
move=> r /flattenP[b /(mem_nthE [::])[i h1 ->]] /(mem_nthE [::])[j h2 ->].
have ik : (i < k)%N by rewrite -sa.
by have [s1 s2] := h i ik; apply: s2; rewrite -s1.
Qed.
End Shapes.

Lemma zip3 (k l m : nat) (J : seq nat) (a : seq (seq (seq R))) i j p v : size J = m -> shape3 a k l m ->
  ((i, j, p), v) \in zip (product (product (iota 0 k) (iota 0 l)) J) (flatten (flatten a)) <->
  [/\ (i < k)%N, (j < l)%N & (p, v) \in zip J (nth [::] (nth [::] a i) j)].
Proof.
move=> sJ sh; have [s1 s2] := flat3 sh; rewrite zip_product; last first.
- by move=> r ra; rewrite sJ; exact: s2.
- by rewrite size_product !size_iota.
have [sa h] := sh; have sh2 : shape2 a k l by split=> // i' h'; have [] := h i' h'.
split.
  case=> r; rewrite zip2 ?size_iota // => -[ik]; have [s3 _] := h i ik.
  by rewrite (zip_iota [::]) // => -[jl ->].
case=> ik jl hp; exists (nth [::] (nth [::] a i) j) => //; have [s3 _] := h i ik.
have [_ z] := zip2 i j (nth [::] (nth [::] a i) j) (size_iota 0 l) sh2; apply: z; split=> //.
exact: (proj2 (zip_iota [::] _ _ s3) (conj jl erefl)).
Qed.

Lemma size3 (k l m : nat) (a : seq (seq (seq R))) : shape3 a k l m -> size (flatten (flatten a)) = (k * l * m)%N.
Proof. by move=> sh; have [s1 s2] := flat3 sh; rewrite (size_flatten_const s2) s1. Qed.

Lemma zip4 (k l m o : nat) (J : seq nat) (a : seq (seq (seq (seq R)))) i j p q v : size J = o -> shape4 a k l m o ->
  ((i, j, p, q), v) \in zip (product (product (product (iota 0 k) (iota 0 l)) (iota 0 m)) J) (flatten (flatten (flatten a))) <->
  [/\ (i < k)%N, (j < l)%N, (p < m)%N & (q, v) \in zip J (nth [::] (nth [::] (nth [::] a i) j) p)].
Proof.
move=> sJ sh; have [sa h] := sh.
have sh3 : shape3 a k l m by split=> // i' h'; have [h1 h2] := h i' h'; split=> // j' h''; have [] := h2 j' h''.
have [s1 s2] := flat3 sh3.
have sf : size (flatten (flatten a)) = (k * l * m)%N by rewrite (size_flatten_const s2) s1.
rewrite zip_product; last first.
- move=> r /flattenP[b /flattenP[c /(mem_nthE [::])[i' h1 ->]] /(mem_nthE [::])[j' h2 ->]] /(mem_nthE [::])[p' h3 ->].
  rewrite sJ; have ik : (i' < k)%N by rewrite -sa.
  have [s3 s4] := h i' ik; have jl : (j' < l)%N by rewrite -s3.
  by have [s5 s6] := s4 j' jl; apply: s6; rewrite -s5.
- by rewrite !size_product !size_iota.
split.
  case=> r; rewrite zip_product; last first.
  - by move=> r' ra; rewrite size_iota; exact: s2.
  - by rewrite size_product !size_iota.
  case=> b; have sh2 : shape2 a k l by split=> // i' h'; have [] := h i' h'.
  move=> /(zip2 _ _ _ (size_iota 0 l) sh2)[ik]; have [s3 s4] := h i ik.
  move=> /(zip_iota [::] _ _ s3)[jl ->]; have [s5 s6] := s4 j jl.
  by move=> /(zip_iota [::] _ _ s5)[pm ->].
case=> ik jl pm hq; exists (nth [::] (nth [::] (nth [::] a i) j) p) => //.
have [s3 s4] := h i ik; have [s5 s6] := s4 j jl.
rewrite zip_product; last first.
- by move=> r' ra; rewrite size_iota; exact: s2.
- by rewrite size_product !size_iota.
exists (nth [::] (nth [::] a i) j); last exact: (proj2 (zip_iota [::] _ _ s5) (conj pm erefl)).
have sh2 : shape2 a k l by split=> // i' h'; have [] := h i' h'.
have [_ z] := zip2 i j (nth [::] (nth [::] a i) j) (size_iota 0 l) sh2; apply: z; split=> //.
exact: (proj2 (zip_iota [::] _ _ s3) (conj jl erefl)).
Qed.

Lemma size4 (k l m o : nat) (a : seq (seq (seq (seq R)))) : shape4 a k l m o ->
  size (flatten (flatten (flatten a))) = (k * l * m * o)%N.
Proof.
move=> sh; have [sa h] := sh.
have sh3 : shape3 a k l m by split=> // i' h'; have [h1 h2] := h i' h'; split=> // j' h''; have [] := h2 j' h''.
have [s1 s2] := flat3 sh3; rewrite (@size_flatten_const _ _ o).
  by rewrite (size_flatten_const s2) s1.
move=> r /flattenP[b /flattenP[c /(mem_nthE [::])[i' h1 ->]] /(mem_nthE [::])[j' h2 ->]] /(mem_nthE [::])[p' h3 ->].
have ik : (i' < k)%N by rewrite -sa.
have [s3 s4] := h i' ik; have jl : (j' < l)%N by rewrite -s3.
by have [s5 s6] := s4 j' jl; apply: s6; rewrite -s5.
Qed.

(** ** Columns *)
Section Columns.
Variables (K M n T D step : nat) (conf : R).

Lemma delta_shows delta : shape2 delta K T ->
  shows (delta_column K T delta) (fun lb => (lb.1 < K)%N /\ (lb.2 < T)%N) (fun lb => at2 delta lb.1 lb.2).
Proof.
move=> sh; apply: iloc_shows; first by apply: uniq_product; exact: iota_uniq.
  by rewrite (size2 sh) size_product !size_iota.
move=> [i j] v; rewrite (zip2 _ _ _ (size_iota 0 T) sh) /=.
split=> [[ik]|[[ik jT] ->]]; have [_ h] := sh.
  by move=> /(zip_iota 0 _ _ (h i ik))[].
by split=> //; exact: (proj2 (zip_iota 0 _ _ (h i ik)) (conj jT erefl)).
Qed.

Lemma acf_shows L acfs : shape2 acfs K L.+1 ->
  shows (energy_acf_column K L acfs) (fun lb => (lb.1 < K)%N /\ (lb.2 <= L)%N) (fun lb => at2 acfs lb.1 lb.2).
Proof.
move=> sh; apply: iloc_shows; first by apply: uniq_product; exact: iota_uniq.
  by rewrite (size2 sh) size_product !size_iota.
move=> [i j] v; rewrite (zip2 _ _ _ (size_iota 0 L.+1) sh) /=.
split=> [[ik]|[[ik jT] ->]]; have [_ h] := sh.
  by move=> /(zip_iota 0 _ _ (h i ik))[].
by split=> //; exact: (proj2 (zip_iota 0 _ _ (h i ik)) (conj jT erefl)).
Qed.

Lemma column3_shows k l m a : shape3 a k l m ->
  shows (iloc_all (product (product (iota 0 k) (iota 0 l)) (iota 0 m)) (flatten (flatten a)))
    (fun lb => [/\ (lb.1.1 < k)%N, (lb.1.2 < l)%N & (lb.2 < m)%N]) (fun lb => at3 a lb.1.1 lb.1.2 lb.2).
Proof.
move=> sh; apply: iloc_shows; first by do 2?apply: uniq_product; exact: iota_uniq.
  by rewrite (size3 sh) !size_product !size_iota.
move=> [[i j] p] v; rewrite (zip3 _ _ _ _ (size_iota 0 m) sh) /=.
split=> [[ik jl]|[[ik jl pm] ->]]; have [_ h] := sh; have [_ h'] := h i ik.
  by move=> /(zip_iota 0 _ _ (h' j jl))[].
by split=> //; exact: (proj2 (zip_iota 0 _ _ (h' j jl)) (conj pm erefl)).
Qed.

Lemma column4_shows a : shape4 a K M T D ->
  shows (mean_column K M T D a) (fun lb => [/\ (lb.1.1.1 < K)%N, (lb.1.1.2 < M)%N, (lb.1.2 < T)%N & (lb.2 < D)%N])
    (fun lb => at4 a lb.1.1.1 lb.1.1.2 lb.1.2 lb.2).
Proof.
move=> sh; apply: iloc_shows; first by do 3?apply: uniq_product; exact: iota_uniq.
  by rewrite (size4 sh) !size_product !size_iota.
move=> [[[i j] p] q] v; rewrite (zip4 _ _ _ _ _ (size_iota 0 D) sh) /=.
split=> [[ik jl pm]|[[ik jl pm qo] ->]]; have [_ h] := sh; have [_ h'] := h i ik; have [_ h''] := h' j jl.
  by move=> /(zip_iota 0 _ _ (h'' p pm))[].
by split=> //; exact: (proj2 (zip_iota 0 _ _ (h'' p pm)) (conj qo erefl)).
Qed.
End Columns.

(** ** Confidence bands *)
Lemma zip_fst (L A : eqType) (idx : seq L) (a : seq A) l v : (l, v) \in zip idx a -> l \in idx.
Proof.
elim: idx a => [|l0 idx IH] [|a0 a] //=; rewrite !inE => /orP[/eqP[-> _]|/IH ->]; rewrite ?eqxx ?orbT //.
Qed.

Lemma zip_map2 (L A B C : eqType) (f : A * B -> C) (idx : seq L) (a : seq A) (b : seq B) l v :
  uniq idx -> size a = size idx -> size b = size idx ->
  (l, v) \in zip idx [seq f p | p <- zip a b] <->
  exists u w, [/\ (l, u) \in zip idx a, (l, w) \in zip idx b & v = f (u, w)].
Proof.
elim: idx a b => [|l0 idx IH] [|a0 a] [|b0 b] //=; first by move=> _ _ _; split=> // -[u [w []]].
move=> /andP[nl ui] [sa] [sb]; have {}IH := IH a b ui sa sb; rewrite inE; split.
  case/orP=> [/eqP[-> ->]|/IH[u [w [h1 h2 ->]]]]; first by exists a0, b0; split; rewrite // ?mem_head.
  by exists u, w; split; rewrite // inE ?h1 ?h2 orbT.
case=> u [w [h1 h2 ev]]; move: h1 h2; rewrite !inE.
case: (eqVneq l l0) => [->|ne].
  case/orP=> [/eqP[eu]|/zip_fst h]; last by rewrite h in nl.
  by case/orP=> [/eqP[ew]|/zip_fst h]; [rewrite ev eu ew eqxx|rewrite h in nl].
have no (X : eqType) (x y : X) : ((l, x) == (l0, y)) = false by apply/negbTE; apply/eqP => -[e]; rewrite e eqxx in ne.
by rewrite !no /= => h1 h2; apply/IH; exists u, w.
Qed.

Lemma iloc_zip (L : eqType) (idx : seq L) (vals : seq R) dom f : shows (iloc_all idx vals) dom f -> size vals = size idx ->
  forall l v, (l, v) \in zip idx vals <-> dom l /\ v = f l.
Proof. by rewrite /iloc_all => -[rows + [_ h]] sv; rewrite sv eqxx => -[->]. Qed.

Lemma conf_shows K M T D conf plus means stds : shape4 means K M T D -> shape4 stds K M T D ->
  shows (conf_column K M T D conf plus means stds)
    (fun lb => [/\ (lb.1.1.1 < K)%N, (lb.1.1.2 < M)%N, (lb.1.2 < T)%N & (lb.2 < D)%N])
    (fun lb => let m := at4 means lb.1.1.1 lb.1.1.2 lb.1.2 lb.2 in let s := at4 stds lb.1.1.1 lb.1.1.2 lb.1.2 lb.2 in
               if plus then m + conf * s else m - conf * s).
Proof.
move=> sm ss; have ui : uniq (marginal_mean_index K M T D) by do 3?apply: uniq_product; exact: iota_uniq.
have s1 : size (flatten (flatten (flatten means))) = size (marginal_mean_index K M T D).
  by rewrite (size4 sm) !size_product !size_iota.
have s2 : size (flatten (flatten (flatten stds))) = size (marginal_mean_index K M T D).
  by rewrite (size4 ss) !size_product !size_iota.
have h1 := iloc_zip (column4_shows sm) s1; have h2 := iloc_zip (column4_shows ss) s2.
apply: iloc_shows => //; first by rewrite size_map size_zip s1 s2 minnn.
move=> l v; rewrite zip_map2 //; split.
  by case=> u [w [/h1[d ->] /h2[_ ->] ->]].
by case=> d ->; exists (at4 means l.1.1.1 l.1.1.2 l.1.2 l.2), (at4 stds l.1.1.1 l.1.1.2 l.1.2 l.2); split; [apply/h1|apply/h2|].
Qed.

(** ** Energies *)
Lemma range_lt n step k : (0 < step)%N -> (k < (n + step.-1) %/ step)%N = (step * k < n)%N.
Proof.
move=> s0; rewrite leq_divRL // mulSn addnC; case: step s0 => // d _.
by rewrite [(k * _)%N]mulnC /= addnS -addSn leq_add2r.
Qed.

Lemma zip_range n step (row : seq R) s v : (0 < step)%N -> size row = ((n + step.-1) %/ step)%N ->
  (s, v) \in zip (range_step n step) row <-> [/\ (s < n)%N, (step %| s)%N & v = row`_(s %/ step)].
Proof.
move=> s0 sr; have sz : size (range_step n step) = size row by rewrite size_map size_iota.
split.
  case/(nthP (0%N, 0)) => i; rewrite size_zip sz minnn => ir; rewrite nth_zip // (nth_map 0%N) ?size_iota -?sr //.
  rewrite nth_iota -?sr // add0n => -[<- <-]; rewrite dvdn_mulr // mulKn //; split=> //.
  by rewrite -range_lt // -sr.
case=> sn ds ->; apply/(nthP (0%N, 0)); exists (s %/ step)%N.
  by rewrite size_zip sz minnn sr range_lt // mulnC divnK.
have h : (s %/ step < (n + step.-1) %/ step)%N by rewrite range_lt // mulnC divnK.
by rewrite nth_zip // (nth_map 0%N) ?size_iota // nth_iota // add0n mulnC divnK.
Qed.

Lemma energy_shows K M n step energy : (0 < step)%N -> (0 < n)%N -> shape3 energy K n M ->
  shows (energy_column K M n step energy)
    (fun lb => [/\ (lb.1.1 < K)%N, (lb.1.2 < M)%N, (lb.2 < n)%N & (step %| lb.2)%N])
    (fun lb => - at3 energy lb.1.1 lb.2 lb.1.2).
Proof.
move=> s0 n0 sh; have [sa h] := sh; set J := range_step n step; set c := ((n + step.-1) %/ step)%N.
have c0 : (0 < c)%N by rewrite range_lt // muln0.
have sJ : size J = c by rewrite size_map size_iota.
pose g e := transpose [seq [seq - v | v <- row] | row <- every [::] step e].
have rw e : shape2 e n M -> forall i, (i < c)%N -> nth [::] (every [::] step e) i = nth [::] e (step * i).
  move=> [se _] i ic; rewrite /every se (nth_map 0%N) ?sJ // (nth_map 0%N) ?size_iota // nth_iota // add0n.
have se e : shape2 e n M -> size (every [::] step e) = c by move=> [se _]; rewrite /every se size_map sJ.
have hd e : shape2 e n M -> size (head [::] [seq [seq - v | v <- row] | row <- every [::] step e]) = M.
  move=> he; rewrite -nth0 (nth_map [::]) ?se // size_map rw // muln0.
  by have [_ h'] := he; exact: h'.
have gs e : shape2 e n M -> shape2 (g e) M c.
  move=> he; split=> [|j jM]; first by rewrite size_map size_iota hd.
  by rewrite /shape1 (nth_map 0%N) ?size_iota ?hd // size_map size_map se.
have sg : shape3 [seq g e | e <- energy] K M c.
  split=> [|i ik]; first by rewrite size_map.
  by rewrite (nth_map [::]) ?sa //; apply: gs; exact: h.
apply: iloc_shows.
- apply: uniq_product; first by apply: uniq_product; exact: iota_uniq.
  rewrite map_inj_uniq ?iota_uniq // => a b /eqP; rewrite eqn_pmul2l // => /eqP //.
- by rewrite (size3 sg) !size_product !size_iota sJ.
move=> [[i j] s] v; rewrite (zip3 _ _ _ _ sJ sg) /=.
have cell : (i < K)%N -> (j < M)%N -> (s < n)%N -> (step %| s)%N ->
    (nth [::] (nth [::] [seq g e | e <- energy] i) j)`_(s %/ step) = - at3 energy i s j.
  move=> ik jM sn ds; have he := h i ik; rewrite (nth_map [::]) ?sa // (nth_map 0%N) ?size_iota ?hd //.
  have hs : (s %/ step < c)%N by rewrite range_lt // mulnC divnK.
  rewrite nth_iota // add0n (nth_map [::]); last by rewrite size_map se.
  rewrite (nth_map [::]) ?se //.
  by rewrite rw // [(step * _)%N]mulnC divnK // (nth_map 0) //; have [_ h'] := he; rewrite (h' s sn).
have sz : (i < K)%N -> (j < M)%N -> size (nth [::] (nth [::] [seq g e | e <- energy] i) j) = c.
  by move=> ik jM; have [_ h1] := sg; have [_ h2] := h1 i ik; exact: h2.
split=> [[ik jM]|[[ik jM sn ds] ->]].
  by move=> /(zip_range _ _ s0 (sz ik jM))[sn ds ->]; rewrite cell.
by split=> //; apply/(zip_range _ _ s0 (sz ik jM)); rewrite cell.
Qed.

(** ** Effective sample sizes *)
Lemma fill_labels (L : Type) (p : L -> bool) rows vals : unzip1 (fill p rows vals) = unzip1 rows.
Proof.
elim: rows vals => [|row rows IH] vals //=; case: (p row.1) => /=; last by rewrite IH.
by case: vals => [|v vals] //=; rewrite IH.
Qed.

Lemma mem_fill (L : eqType) (p : L -> bool) (rows : seq (L * option R)) vals l w :
  size vals = count p (unzip1 rows) ->
  (l, w) \in fill p rows vals <->
  (if p l then exists2 v, w = Some v & (l, v) \in zip (filter p (unzip1 rows)) vals else is_true ((l, w) \in rows)).
Proof.
elim: rows vals => [|[l0 w0] rows IH] vals /=.
  by case: vals => // _; case: (p l); split=> // -[].
case p0 : (p l0) => /=; last first.
  rewrite add0n => sv; have {}IH := IH vals sv; rewrite inE; split.
    case/orP=> [/eqP[-> ->]|/IH]; first by rewrite p0 mem_head.
    by case: (p l) => // h; rewrite inE h orbT.
  case pl : (p l) IH => IH; first by move/IH => ->; rewrite orbT.
  by rewrite inE => /orP[->//|/IH ->]; rewrite orbT.
case: vals => [|v vals] //= [sv]; have {}IH := IH vals sv; rewrite inE; split.
  case/orP=> [/eqP[-> ->]|/IH]; first by rewrite p0; exists v => //; rewrite mem_head.
  case pl : (p l); first by case=> v' -> h; exists v' => //; rewrite inE h orbT.
  by move=> h; rewrite inE h orbT.
case pl : (p l) IH => IH.
  case=> v' wE; rewrite inE => /orP[/eqP[-> vE]|h]; first by rewrite wE vE eqxx.
  by apply/orP; right; apply/IH; exists v'.
rewrite inE => /orP[/eqP[e _]|/IH ->]; last by rewrite orbT.
by rewrite e p0 in pl.
Qed.

Lemma product_cat (A B : Type) (s1 s2 : seq A) (t : seq B) : product (s1 ++ s2) t = product s1 t ++ product s2 t.
Proof. by rewrite /product map_cat flatten_cat. Qed.

Definition stat_rows (K T : nat) (s : ess_stat) := product (product [:: s] (iota 0 K)) (iota 0 T).

Lemma ess_indexE K T : ess_index K T = stat_rows K T st_min ++ stat_rows K T st_med ++ stat_rows K T st_max.
Proof. by rewrite /ess_index /stat_rows -[[:: st_min; st_med; st_max]]/([:: st_min] ++ [:: st_med] ++ [:: st_max]) !product_cat. Qed.

Lemma mem_stat_rows K T s l : l \in stat_rows K T s = [&& l.1.1 == s, (l.1.2 < K)%N & (l.2 < T)%N].
Proof.
case: l => [[a i] j] /=; apply/allpairsP/and3P => [[[[b i'] j'] /= [/allpairsP[[c i2] /= [h1 h2 [-> ->]]] h3 [-> -> ->]]]|].
  by move: h1 h2 h3; rewrite !inE !mem_iota !add0n.
case=> /eqP -> iK jT; exists ((s, i), j); rewrite mem_iota; split=> //; apply/allpairsP; exists (s, i).
by rewrite mem_head mem_iota.
Qed.

Lemma filter_stat K T s : filter (fun l => l.1.1 == s) (ess_index K T) = stat_rows K T s.
Proof.
have e s' : filter (fun l => l.1.1 == s) (stat_rows K T s') = if s' == s then stat_rows K T s' else [::].
  case: ifP => h; [apply/all_filterP/allP => l|apply/eqP; rewrite -(negbK (_ == _)) -has_filter; apply/hasPn => l];
    by rewrite mem_stat_rows => /and3P[/eqP -> _ _]; rewrite h.
by rewrite ess_indexE !filter_cat !e; case: s {e} => /=; rewrite ?cats0.
Qed.

Lemma zip_stat K T s (X : seq (seq R)) s' i j v : shape2 X K T ->
  ((s', i, j), v) \in zip (stat_rows K T s) (flatten X) <-> [/\ s' = s, (i < K)%N, (j < T)%N & v = at2 X i j].
Proof.
move=> [sX h]; rewrite /stat_rows zip_product; last first.
- by move=> r /(mem_nthE [::])[i' h1 ->]; rewrite size_iota; apply: h; rewrite -sX.
- by rewrite size_product /= mul1n size_iota.
have fX : X = flatten [:: X] by rewrite /= cats0.
split.
  case=> r; rewrite {1}fX zip_product ?size_iota //; last by move=> r'; rewrite inE => /eqP ->.
  case=> Y; rewrite inE => /eqP[-> ->] /(zip_iota [::] _ _ sX)[iK ->] /(zip_iota 0 _ _ (h i iK))[jT ->].
  by [].
case=> -> iK jT ->; exists (nth [::] X i); last exact: (proj2 (zip_iota 0 _ _ (h i iK)) (conj jT erefl)).
rewrite [X in _ \in zip _ X]fX zip_product ?size_iota //; last by move=> r'; rewrite inE => /eqP ->.
exists X; first by rewrite mem_head.
exact: (proj2 (zip_iota [::] _ _ sX) (conj iK erefl)).
Qed.

Definition stat_of (s : ess_stat) : seq R -> R := match s with st_min => np_min | st_med => np_median | st_max => np_max end.

Section Ess.
Variables (K T D : nat) (ess : seq (seq (seq R))).
Hypothesis sh : shape3 ess K T D.
Local Notation X s := [seq [seq stat_of s row | row <- e] | e <- ess].

Let shX s : shape2 (X s) K T.
Proof.
have [sa h] := sh; split=> [|i iK]; first by rewrite size_map.
by rewrite (nth_map [::]) ?sa // /shape1 size_map; have [] := h i iK.
Qed.

Let atX s i j : (i < K)%N -> (j < T)%N -> at2 (X s) i j = stat_of s (nth [::] (nth [::] ess i) j).
Proof.
move=> iK jT; have [sa h] := sh; have [s2 _] := h i iK.
by rewrite /at2 (nth_map [::]) ?sa // (nth_map [::]) ?s2.
Qed.

Let countX s (rows : seq (ess_stat * nat * nat * option R)) : unzip1 rows = ess_index K T -> size (flatten (X s)) = count (fun l => l.1.1 == s) (unzip1 rows) :> nat.
Proof. by move=> ->; rewrite -size_filter filter_stat (size2 (shX s)) !size_product /= mul1n !size_iota. Qed.

Let step s (rows : seq (ess_stat * nat * nat * option R)) : unzip1 rows = ess_index K T ->
  exists2 rows', loc_set (fun l => l.1.1 == s) (flatten (X s)) rows = Some rows' &
    unzip1 rows' = ess_index K T /\ forall l w, (l, w) \in rows' <->
      (if l.1.1 == s then [/\ (l.1.2 < K)%N, (l.2 < T)%N & w = Some (stat_of s (nth [::] (nth [::] ess l.1.2) l.2))]
       else is_true ((l, w) \in rows)).
Proof.
move=> lab; have sz := countX s lab; exists (fill (fun l => l.1.1 == s) rows (flatten (X s))).
  by rewrite /loc_set sz eqxx.
split=> [|[[s' i] j] w]; first by rewrite fill_labels.
rewrite mem_fill // lab filter_stat /=; case: eqP => // ->; split.
  by case=> v -> /(@zip_stat K T s _ _ _ _ _ (shX s))[_ iK jT ->]; rewrite atX.
case=> iK jT ->; exists (stat_of s (nth [::] (nth [::] ess i) j)) => //.
by apply/(@zip_stat K T s _ _ _ _ _ (shX s)); rewrite atX.
Qed.

Lemma ess_shows : shows (ess_column K T ess) (fun lb => (lb.1.2 < K)%N /\ (lb.2 < T)%N)
  (fun lb => Some (stat_of lb.1.1 (nth [::] (nth [::] ess lb.1.2) lb.2))).
Proof.
have l0 : unzip1 [seq (l, None : option R) | l <- ess_index K T] = ess_index K T by rewrite /unzip1 -map_comp map_id.
have [r1 e1 [l1 m1]] := step st_min l0.
have [r2 e2 [l2 m2]] := step st_med l1.
have [r3 e3 [l3 m3]] := step st_max l2.
exists r3; first by rewrite /ess_column e1 /obind /oapp e2 e3.
split.
  rewrite l3; apply: uniq_product; last exact: iota_uniq.
  by apply: uniq_product; last exact: iota_uniq.
move=> [[s i] j] w; have {m1}h1 := m1 (s, i, j) w; have {m2}h2 := m2 (s, i, j) w; have {m3}h3 := m3 (s, i, j) w.
move: h1 h2 h3 => /=; case: s => /= h1 h2 h3.
- apply: (iff_trans h3); apply: (iff_trans h2); apply: (iff_trans h1).
  by split=> [[? ? ->]|[[? ?] ->]].
- by apply: (iff_trans h3); apply: (iff_trans h2); split=> [[? ? ->]|[[? ?] ->]].
by apply: (iff_trans h3); split=> [[? ? ->]|[[? ?] ->]].
Qed.
End Ess.

Lemma ess_time_shows K T D ess times : shape3 ess K T D -> shape1 times K ->
  shows (ess_time_column K T ess times) (fun lb => (lb.1.2 < K)%N /\ (lb.2 < T)%N)
    (fun lb => Some (stat_of lb.1.1 [seq v / times`_(lb.1.2) | v <- nth [::] (nth [::] ess lb.1.2) lb.2])).
Proof.
move=> [sa h] st; set a := [seq [seq [seq v / p.2 | v <- row] | row <- p.1] | p <- zip ess times].
have na i : (i < K)%N -> nth [::] a i = [seq [seq v / times`_i | v <- row] | row <- nth [::] ess i].
  move=> iK; rewrite (nth_map ([::], 0)) ?size_zip ?sa ?st ?minnn // nth_zip ?sa ?st //.
have sh : shape3 a K T D.
  split=> [|i iK]; first by rewrite size_map size_zip sa st minnn.
  have [s2 h2] := h i iK; rewrite na //; split=> [|j jT]; first by rewrite size_map.
  by rewrite (nth_map [::]) ?s2 // /shape1 size_map; exact: h2.
have [rows e [u m]] := ess_shows sh; exists rows => //; split=> // l v; rewrite m.
have c : (l.1.2 < K)%N -> (l.2 < T)%N -> nth [::] (nth [::] a l.1.2) l.2 = [seq v / times`_(l.1.2) | v <- nth [::] (nth [::] ess l.1.2) l.2].
  by move=> h1 h2; have [s2 _] := h _ h1; rewrite na // (nth_map [::]) ?s2.
by split=> -[[h1 h2] ->]; rewrite c.
Qed.

(** ** Summaries of rows *)
Lemma np_min_is s : (0 < size s)%N -> is_min s (np_min s).
Proof.
case: s => // a s _; rewrite /np_min /=.
have h : forall (t : seq R) (b : R), (foldr Num.min b t \in b :: t) /\ forall v, v \in b :: t -> foldr Num.min b t <= v.
  elim=> [|c t IH] b /=; first by rewrite mem_head; split=> // v; rewrite inE => /eqP ->.
  have [h1 h2] := IH b; split.
    by case: (leP c (foldr Num.min b t)) => _; rewrite !inE ?eqxx ?orbT //; move: h1; rewrite inE => /orP[->|->]; rewrite ?orbT.
  move=> v; rewrite !inE le_minl => /orP[/eqP ->|/orP[/eqP ->|vt]]; rewrite ?lexx //.
    by rewrite h2 ?mem_head ?orbT.
  by rewrite h2 ?orbT // inE vt orbT.
have [h1 h2] := h (a :: s) a; split.
  by move: h1; rewrite /= !inE orbA orbb.
by move=> v vs; apply: h2; rewrite inE vs orbT.
Qed.

Lemma np_max_is s : (0 < size s)%N -> is_max s (np_max s).
Proof.
case: s => // a s _; rewrite /np_max /=.
have h : forall (t : seq R) (b : R), (foldr Num.max b t \in b :: t) /\ forall v, v \in b :: t -> v <= foldr Num.max b t.
  elim=> [|c t IH] b /=; first by rewrite mem_head; split=> // v; rewrite inE => /eqP ->.
  have [h1 h2] := IH b; split.
    by case: (leP c (foldr Num.max b t)) => _; rewrite !inE ?eqxx ?orbT //; move: h1; rewrite inE => /orP[->|->]; rewrite ?orbT.
  move=> v; rewrite !inE le_maxr => /orP[/eqP ->|/orP[/eqP ->|vt]]; rewrite ?lexx //.
    by rewrite h2 ?mem_head ?orbT.
  by rewrite h2 ?orbT // inE vt orbT.
have [h1 h2] := h (a :: s) a; split.
  by move: h1; rewrite /= !inE orbA orbb.
by move=> v vs; apply: h2; rewrite inE vs orbT.
Qed.

Lemma halvesE s m : (0 < size s)%N -> let t := sort <=%R s in
  halves s m <-> t`_((size s).-1 %/ 2) <= m <= t`_(size s %/ 2).
Proof.
move=> s0 t; set a := ((size s).-1 %/ 2)%N; set b := (size s %/ 2)%N.
have pt (p : pred R) : count p s = count p t by apply/esym/permP; rewrite perm_sort.
have st : size t = size s by rewrite size_sort.
have so : sorted <=%R t by exact: sort_le_sorted.
have le i j : (i <= j)%N -> (j < size s)%N -> t`_i <= t`_j.
  move=> ij js; apply: (sorted_leq_nth le_trans lexx 0 so) => //; rewrite inE st //.
  exact: leq_ltn_trans ij js.
have bs : (b < size s)%N by rewrite ltn_Pdiv.
have ab : (a <= b)%N by rewrite leq_div2r // leq_pred.
have as_ : (a < size s)%N by apply: leq_ltn_trans bs.
have a2 : (2 * a < size s)%N.
  by rewrite mulnC -[X in (_ < X)%N](prednK s0) ltnS; exact: leq_trunc_div.
have b2 : (size s < 2 * b.+1)%N by rewrite mulnC; exact: ltn_ceil.
split.
  rewrite /halves !pt -st => -[h1 h2]; apply/andP; split; rewrite leNgt; apply/negP => hm.
    have : (count (fun v => (v <= m)%R) t <= a)%N.
      rewrite -[X in count _ X](cat_take_drop a) count_cat.
      have -> : count (fun v => (v <= m)%R) (drop a t) = 0%N.
        apply/eqP; rewrite -leqn0 leqNgt -has_count; apply/hasPn => v /(nthP 0)[i hi <-].
        rewrite -ltNge nth_drop; apply: (lt_le_trans hm); apply: le; first exact: leq_addr.
        by move: hi; rewrite size_drop st ltn_subRL.
      by rewrite addn0; apply: (leq_trans (count_size _ _)); rewrite size_takel // st ltnW.
    rewrite -(leq_pmul2l (isT : (0 < 2)%N)) => h; have := leq_trans h1 h.
    by rewrite st leqNgt a2.
  have : (count (fun v => (m <= v)%R) t <= size s - b.+1)%N.
    rewrite -[X in count _ X](cat_take_drop b.+1) count_cat.
    have -> : count (fun v => (m <= v)%R) (take b.+1 t) = 0%N.
      apply/eqP; rewrite -leqn0 leqNgt -has_count; apply/hasPn => v /(nthP 0)[i hi <-].
      have ib : (i < b.+1)%N by apply: (leq_trans hi); rewrite size_takel // st.
      by rewrite -ltNge nth_take //; apply: le_lt_trans hm; exact: le.
    by rewrite add0n; apply: (leq_trans (count_size _ _)); rewrite size_drop st.
  rewrite -(leq_pmul2l (isT : (0 < 2)%N)) => h; have := leq_trans h2 h.
  rewrite st mulnBr leq_subRL; last by rewrite leq_mul2l.
  by rewrite addnC [X in (_ <= X)%N]mul2n -addnn leq_add2l leqNgt b2.
case/andP=> m1 m2; split; rewrite pt -st.
  have : (a.+1 <= count (fun v => (v <= m)%R) t)%N.
    rewrite -[X in count _ X](cat_take_drop a.+1) count_cat.
    have -> : count (fun v => (v <= m)%R) (take a.+1 t) = a.+1.
      have sz : size (take a.+1 t) = a.+1 by rewrite size_takel // st.
      rewrite -[RHS]sz; apply/eqP; rewrite -all_count; apply/(all_nthP 0) => i; rewrite sz ltnS => ia.
      by rewrite nth_take ?ltnS //; apply: le_trans m1; exact: le.
    exact: leq_addr.
  move=> h; apply: (@leq_trans (2 * a.+1)); last by rewrite leq_mul2l.
  by rewrite st -{1}(prednK s0) mulnC; exact: ltn_ceil.
have : (size s - b <= count (fun v => (m <= v)%R) t)%N.
  rewrite -[X in count _ X](cat_take_drop b) count_cat.
  have -> : count (fun v => (m <= v)%R) (drop b t) = (size s - b)%N.
    have sz : size (drop b t) = (size s - b)%N by rewrite size_drop st.
    rewrite -[RHS]sz; apply/eqP; rewrite -all_count; apply/(all_nthP 0) => i; rewrite sz => ib.
    rewrite nth_drop; apply: (le_trans m2); apply: le; first exact: leq_addr.
    by rewrite -ltn_subRL.
  exact: leq_addl.
move=> h; apply: (@leq_trans (2 * (size s - b))); last by rewrite leq_mul2l.
rewrite st mulnBr leq_subRL; last first.
  by rewrite leq_mul2l /= ltnW.
rewrite [X in (_ <= X)%N]mul2n -addnn leq_add2r mulnC.
exact: leq_trunc_div.
Qed.

Lemma np_median_is s : (0 < size s)%N -> is_median s (np_median s).
Proof.
move=> s0; have h m := @halvesE s m s0; rewrite /np_median; set t := sort <=%R s in h *.
have st : size t = size s by rewrite size_sort.
have : t`_((size s).-1 %/ 2) <= t`_(size s %/ 2).
  apply: (sorted_leq_nth le_trans lexx 0 (sort_le_sorted s)).
  - rewrite inE st; apply: leq_ltn_trans (_ : (size s %/ 2 < size s)%N); last by rewrite ltn_Pdiv.
    by rewrite leq_div2r // leq_pred.
  - by rewrite inE st ltn_Pdiv.
  by rewrite leq_div2r // leq_pred.
have h1 (u v : R) : u <= v -> u <= (u + v) / 2%:R <= v.
  by move=> uv; apply/andP; split; toR; lra.
have h2 (u v w : R) : u <= w <= v -> u <= (u + v) / 2%:R + ((u + v) / 2%:R - w) <= v.
  by case/andP=> uw wv; apply/andP; split; toR; lra.
by move=> uv; split=> [|w /h hw]; apply/h; [exact: h1|exact: h2].
Qed.

Lemma stat_of_is s row : (0 < size row)%N -> is_stat s row (stat_of s row).
Proof. by case: s => h; [exact: np_min_is|exact: np_median_is|exact: np_max_is]. Qed.

(** ** Frames *)
Section Frame.
Variables (F : Type) (A : eqType) (load : kernel_type -> style -> nat -> option F) (column : F -> option A).

Definition cell_of (c : nat * paper_name) : option A :=
  obind (fun ks : kernel_type * style => obind column (load ks.1 ks.2 c.1)) (name_to_kernel_style c.2).

Lemma frame_some t : frame load column = Some t ->
  unzip1 t = product TAUS name_in_paper /\ forall e, List.In e t -> cell_of e.1 = Some e.2.
Proof.
rewrite /frame; elim: (product _ _) t => [|c s IH] t /=; first by case=> <-.
case: (foldr _ _ _) IH => //= rest IH; have [l h] := IH rest erefl.
case E1 : (name_to_kernel_style _) => [ks|] //=; case E2 : (load _ _ _) => [f|] //=; case E3 : (column f) => [a|] //= [<-].
split=> /=; first by rewrite l.
move=> e [<-|he] /=; last exact: h.
by rewrite /cell_of E1 /= E2 /=.
Qed.

Lemma frame_none : frame load column = None <-> exists2 c, c \in (product TAUS name_in_paper : seq [eqType of nat * (first_line * option (nat * bool))]) & cell_of c = None.
Proof.
rewrite /frame; elim: (product _ _) => [|c s IH] /=; first by split=> // -[].
case: (foldr _ _ _) IH => /= [rest|] [h1 h2]; last first.
  by split=> // _; have [c' hc e] := h1 erefl; exists c' => //; rewrite inE hc orbT.
split.
  move=> h; exists c; first by rewrite mem_head.
  rewrite /cell_of; move: h; case: (name_to_kernel_style _) => //= ks; case: (load _ _ _) => //= f; by case: (column f).
case=> c'; rewrite inE => /orP[/eqP ->|hc] e; last by have := h2 (ex_intro2 _ _ c' hc e).
move: e; rewrite /cell_of; case: (name_to_kernel_style _) => //= ks; case: (load _ _ _) => //= f; by case: (column f).
Qed.
End Frame.

Lemma reload_same (L : Type) (index : seq L) vals rows : iloc_all index vals = Some rows -> reload index rows = Some rows.
Proof.
rewrite /reload /iloc_all; case: eqP => [e [<-]|_].
  by rewrite unzip2_zip ?e // eqxx.
case: vals => [|v [|w vals]] // [<-]; rewrite !size_map eqxx; congr Some.
by elim: index => //= a l ->.
Qed.

(** ** Names *)
Lemma names_kernels (nm : [eqType of first_line * option (nat * bool)]) : nm \in name_in_paper ->
  exists2 ks, name_to_kernel_style nm = Some ks /\ kernel_style_to_name ks = Some nm &
  exists2 i, sv_kernel_maker ks.1 ks.2 = Some i & kernel_does i = name_says nm.
Proof.
rewrite !inE; do 13?[case/orP]; move=> /eqP ->; (eexists; [split; reflexivity|eexists; reflexivity]).
Qed.

Lemma names_groups (nm : [eqType of first_line * option (nat * bool)]) : nm \in name_in_paper ->
  [/\ (nm \in ALL_GAUSSIAN_KERNELS) = f_gaussian (name_says nm),
      (nm \in NON_GAUSSIAN_KERNELS) = ~~ f_gaussian (name_says nm),
      (nm \in NON_GAUSSIAN_KERNELS_WITHOUT_EXCLUDED) =
        [&& ~~ f_gaussian (name_says nm), f_particles (name_says nm) & (nm.1 != n_CSMC)],
      (nm \in GAUSSIAN_KERNELS) = f_gaussian (name_says nm) && ~~ f_twisted (name_says nm) &
      (nm \in TWISTED_KERNELS) = f_twisted (name_says nm) || (nm.1 == n_aGRAD)].
Proof. by rewrite !inE; do 13?[case/orP]; move=> /eqP ->. Qed.

Lemma groups_names (nm : [eqType of first_line * option (nat * bool)]) :
  (nm \in ALL_GAUSSIAN_KERNELS) || (nm \in NON_GAUSSIAN_KERNELS) -> nm \in name_in_paper.
Proof. by rewrite !inE; case/orP; do 7?[case/orP]; move=> /eqP ->. Qed.

Lemma row_iota D (s : seq R) : size s = D -> s = [seq s`_k | k <- iota 0 D].
Proof. by move=> <-; rewrite map_nth_iota0 // take_size. Qed.

Lemma ess_tables (K T D : nat) ess times : (0 < D)%N -> shape3 ess K T D -> shape1 times K ->
  exists s1 s2 : ess_stat * nat * nat -> R,
    [/\ shows (ess_column K T ess) (fun lb => (lb.1.2 < K)%N /\ (lb.2 < T)%N) (fun lb => Some (s1 lb)),
        shows (ess_time_column K T ess times) (fun lb => (lb.1.2 < K)%N /\ (lb.2 < T)%N) (fun lb => Some (s2 lb)) &
        forall s i j, (i < K)%N -> (j < T)%N ->
          is_stat s [seq at3 ess i j k | k <- iota 0 D] (s1 (s, i, j)) /\
          is_stat s [seq at3 ess i j k / times`_i | k <- iota 0 D] (s2 (s, i, j))].
Proof.
move=> D0 sh st; have h1 := ess_shows sh; have h2 := ess_time_shows sh st.
eexists; eexists; split; [exact: h1|exact: h2|].
move=> s i j iK jT /=; have [sa h] := sh; have [sb hb] := h i iK; have sc := hb j jT.
have -> : [seq at3 ess i j k | k <- iota 0 D] = nth [::] (nth [::] ess i) j by rewrite [RHS](row_iota sc).
have -> : [seq at3 ess i j k / times`_i | k <- iota 0 D] = [seq v / times`_i | v <- nth [::] (nth [::] ess i) j].
  by rewrite [in RHS](row_iota sc) -map_comp.
by split; apply: stat_of_is; rewrite ?size_map sc.
Qed.

Lemma stat_unique s row a b : (0 < size row)%N -> is_stat s row a -> is_stat s row b -> a = b.
Proof.
move=> s0; case: s => /=; first by move=> [h1 h2] [h3 h4]; apply/le_anti; rewrite h2 // h4.
  move=> [h1 h2] [h3 h4]; have hE w := @halvesE row w s0; move: hE => /=.
  move: ((sort <=%R row)`_((size row).-1 %/ 2)) ((sort <=%R row)`_(size row %/ 2)) => u v hE.
  have uv : u <= v by case/hE/andP: h1 => ua av; exact: le_trans ua av.
  have hu : halves row u by apply/hE; rewrite lexx uv.
  have hv : halves row v by apply/hE; rewrite lexx uv.
  case/h2/hE/andP: (hu) => _ a1; case/h2/hE/andP: (hv) => a2 _.
  case/h4/hE/andP: (hu) => _ b1; case/h4/hE/andP: (hv) => b2 _.
  have key (x y c d : R) : c + (c - x) <= y -> x <= c + (c - y) -> d + (d - x) <= y -> x <= d + (d - y) -> c = d.
    by move=> *; toR; lra.
  exact: key a1 a2 b1 b2.
by move=> [h1 h2] [h3 h4]; apply/le_anti; rewrite h2 // h4.
Qed.

Lemma iloc_none (L : Type) (index : seq L) vals : iloc_all index vals = None <-> (size vals != size index) && (size vals != 1%N).
Proof. by rewrite /iloc_all; case: eqP => //= _; case: vals => [|v [|w vals]]. Qed.

Section FrameIff.
Variables (F : Type) (A : eqType) (load : kernel_type -> style -> nat -> option F) (column : F -> option A).
Local Notation name := [eqType of first_line * option (nat * bool)].

Lemma mem_columns tau (nm : name) : ((tau, nm) \in (product TAUS name_in_paper : seq [eqType of nat * name])) = (tau \in TAUS) && (nm \in name_in_paper).
Proof.
by apply/allpairsP/andP => [[[a b] /= [h1 h2 [-> ->]]]|[h1 h2]] //; exists (tau, nm).
Qed.

Lemma has_style (nm : name) : nm \in name_in_paper -> exists ks, name_to_kernel_style nm = Some ks.
Proof. by case/names_kernels=> ks [e _] _; exists ks. Qed.

Lemma frame_none_iff : frame load column = None <->
  exists tau nm ks, [/\ tau \in [:: 10; 50; 100; 200]%N, nm \in (name_in_paper : seq name),
    name_to_kernel_style nm = Some ks & obind column (load ks.1 ks.2 tau) = None].
Proof.
apply: (iff_trans (frame_none _ _)); split.
  case=> -[tau nm]; rewrite mem_columns => /andP[h1 h2]; have [ks e] := has_style h2.
  by rewrite /cell_of e /= => h; exists tau, nm, ks.
by case=> tau [nm [ks [h1 h2 e h]]]; exists (tau, nm); rewrite ?mem_columns ?h1 // /cell_of e.
Qed.

Lemma frame_some_iff t : frame load column = Some t -> forall tau (nm : name) a,
  ((tau, nm), a) \in (t : seq [eqType of nat * name * A]) <->
  [/\ tau \in [:: 10; 50; 100; 200]%N, nm \in name_in_paper &
      exists2 ks, name_to_kernel_style nm = Some ks & obind column (load ks.1 ks.2 tau) = Some a].
Proof.
case/frame_some=> lab h tau nm a.
have cell e : e \in (t : seq [eqType of nat * name * A]) -> cell_of load column e.1 = Some e.2.
  move=> et; apply: h; elim: t et {lab} => //= b t IH; rewrite inE => /orP[/eqP ->|/IH]; [by left|by right].
split.
  move=> ht; have := map_f fst ht; rewrite -/(unzip1 t) lab mem_columns => /andP[h1 h2]; split=> //.
  by have [ks e] := has_style h2; exists ks => //; have := cell _ ht; rewrite /cell_of /= e.
case=> h1 h2 [ks e ea]; have : (tau, nm) \in (unzip1 t : seq [eqType of nat * name]) by rewrite lab mem_columns h1.
case/mapP=> -[c b] hc /= cE; move: (cell _ hc); rewrite -cE /cell_of /= e /= ea => -[ab].
by rewrite ab cE.
Qed.
End FrameIff.

Lemma styles_names (ks : [eqType of kernel_type * style]) : ks \in kernel_style_lst ->
  exists2 nm, kernel_style_to_name ks = Some nm & nm \in (name_in_paper : seq [eqType of first_line * option (nat * bool)])
    /\ name_to_kernel_style nm = Some ks.
Proof. by rewrite !inE; do 13?[case/orP]; move=> /eqP ->; eexists; (reflexivity || split). Qed.

Lemma groups_all (nm : [eqType of first_line * option (nat * bool)]) :
  [/\ (nm \in ALL_GAUSSIAN_KERNELS) = (nm \in name_in_paper) && f_gaussian (name_says nm),
      (nm \in NON_GAUSSIAN_KERNELS) = (nm \in name_in_paper) && ~~ f_gaussian (name_says nm),
      (nm \in NON_GAUSSIAN_KERNELS_WITHOUT_EXCLUDED) =
        [&& nm \in name_in_paper, ~~ f_gaussian (name_says nm), f_particles (name_says nm) & (nm.1 != n_CSMC)],
      (nm \in GAUSSIAN_KERNELS) = [&& nm \in name_in_paper, f_gaussian (name_says nm) & ~~ f_twisted (name_says nm)] &
      (nm \in TWISTED_KERNELS) = (nm \in name_in_paper) && (f_twisted (name_says nm) || (nm.1 == n_aGRAD))].
Proof.
case h : (nm \in name_in_paper); first exact: names_groups.
have a : nm \in ALL_GAUSSIAN_KERNELS = false by apply/negbTE; apply: contraFN h => h; apply: groups_names; rewrite h.
have b : nm \in NON_GAUSSIAN_KERNELS = false by apply/negbTE; apply: contraFN h => h; apply: groups_names; rewrite h orbT.
have /norP[c d] : ~~ ((nm \in GAUSSIAN_KERNELS) || (nm \notin GAUSSIAN_KERNELS) && (nm \in TWISTED_KERNELS)).
  by move: a; rewrite mem_cat mem_filter => ->.
split; rewrite ?andFb //.
- by rewrite /NON_GAUSSIAN_KERNELS_WITHOUT_EXCLUDED mem_filter b andbF.
- exact: negbTE.
- by apply/negbTE; move: d; rewrite c.
Qed.

Lemma median_example : np_median [:: 1; 0] = 2%:R^-1 /\ is_median [:: 1; 0] (2%:R^-1).
Proof.
have e : np_median [:: 1; 0] = 2%:R^-1.
  by rewrite /np_median /= /sort /= ler10 /= add0r mul1r.
by split=> //; rewrite -e; exact: np_median_is.
Qed.
