(** * ExperimentGrid: the grids of configurations of the experiments. *)
From Coq Require Import Reals.
From mathcomp Require Import all_ssreflect all_algebra.
From Verif Require Import RInst Experiments.

Set Implicit Arguments.
Unset Strict Implicit.
Unset Printing Implicit Defensive.
Import GRing.Theory Num.Theory Order.TTheory.

Lemma nth_Some (A : eqType) (s : seq A) (i : nat) c : nth None [seq Some x | x <- s] i = Some c -> (i < size s)%N /\ c \in s.
Proof.
elim: s i => [|a s IH] [|i] //=; first by case=> ->; rewrite mem_head.
by move/IH => [lt m]; rewrite ltnS lt inE m orbT.
Qed.

Lemma nth_Some_ex (A : Type) (s : seq A) (i : nat) : (i < size s)%N -> exists c, nth None [seq Some x | x <- s] i = Some c.
Proof. by elim: s i => [|a s IH] [|i] //= lt; [exists a | exact: IH]. Qed.

Lemma once_gen (A : eqType) (s : seq A) n c : uniq s -> size s = n -> c \in s ->
  exists! i, i \in iota 0 n /\ nth None [seq Some x | x <- s] i = Some c.
Proof.
move=> us ss m.
have m' : Some c \in [seq Some x | x <- s] by apply: map_f.
have us' : uniq [seq Some x | x <- s] by rewrite map_inj_uniq // => ? ? [].
exists (index (Some c) [seq Some x | x <- s]); split.
  by split; [rewrite mem_iota add0n leq0n -ss -(size_map Some) index_mem|rewrite nth_index].
move=> j [jm <-]; rewrite index_uniq //.
by move: jm; rewrite mem_iota add0n size_map ss.
Qed.

Lemma inj_gen (A : eqType) (s : seq A) i j c : uniq s ->
  nth None [seq Some x | x <- s] i = Some c -> nth None [seq Some x | x <- s] j = Some c -> i = j.
Proof.
move=> us e e'; have us' : uniq [seq Some x | x <- s] by rewrite map_inj_uniq // => ? ? [].
have [li _] := nth_Some e; have [lj _] := nth_Some e'.
by apply/eqP; rewrite -(nth_uniq None _ _ us') ?size_map // e e'.
Qed.

Definition row_ok (r : kernel_type * style * nat * delta_arg) : bool :=
  let: (k, s, _, _) := r in
  if obind (fun k => lg_kernel_maker k s) (of_value 9 (value k)) is Some im then
    [&& all (mem (accepted im)) (forwarded im), all (mem (forwarded im)) (required im), uniq (forwarded im)
      & (if wants_array im is Some b then shape_delta k == b else true)]
  else false.

Lemma rows_ok : all row_ok lg_rows. Proof. by vm_compute. Qed.
Lemma rows_uniq : uniq lg_rows. Proof. by vm_compute. Qed.
Lemma lg_size : size lg_combination = 1820. Proof. by vm_compute. Qed.

Lemma lg_mem lv T D r : ((lv, T, D, r) \in lg_combination) = [&& lv \in lg_LOG_SIGMAS, T == 10, D == 10 & r \in lg_rows].
Proof.
apply/allpairsP/and4P => [[[[[a b] c] e] /= [/allpairsP [[[a' b'] c'] /= [/allpairsP [[a'' b''] /= [ma mb [-> ->]]] mc [-> -> ->]]] me [-> -> -> ->]]]|].
  by rewrite !mem_seq1 in mb mc; split.
case=> ml /eqP -> /eqP -> mr; exists ((lv, 10, 10), r); split=> //=.
apply/allpairsP; exists ((lv, 10), 10); split=> //=; apply/allpairsP; by exists (lv, 10).
Qed.

Lemma lv_mem (lv : int) : (lv \in lg_LOG_SIGMAS) = ((- 60%:Z <= lv) && (lv <= 30%:Z))%R.
Proof.
apply/mapP/andP => [[i]|[h1 h2]].
  rewrite mem_iota add0n => /= lt ->; split; first by rewrite -[X in (X <= _)%R]add0r ler_add2r.
  by rewrite ler_subl_addr lez_nat -ltnS.
have h : (0 <= lv + 60%:Z)%R by rewrite -ler_subl_addr sub0r.
case E : (lv + 60%:Z)%R h => [n|n] // _; exists n; last by rewrite -E addrK.
rewrite mem_iota add0n /= ltnS -lez_nat -[Posz n]E.
by rewrite -ler_subr_addr.
Qed.

Lemma lg_uniq : uniq lg_combination.
Proof.
apply: allpairs_uniq; [|exact: rows_uniq|by move=> [? ?] [? ?] _ _ [-> ->]].
apply: allpairs_uniq; [|by []|by move=> [? ?] [? ?] _ _ [-> ->]].
apply: allpairs_uniq; [|by []|by move=> [? ?] [? ?] _ _ [-> ->]].
rewrite map_inj_uniq ?iota_uniq // => i j /addIr e; by case: e.
Qed.

Lemma lg_launches i : i \in lg_array ->
  exists c im, let: (_, _, _, (k, _, _, _)) := c in
  [/\ lg_config i = Some c, lg_launch i = Some im,
      {subset forwarded im <= accepted im} /\ uniq (forwarded im), {subset required im <= forwarded im}
    & forall b, wants_array im = Some b -> shape_delta k = b].
Proof.
rewrite mem_iota add0n => /andP [_ lt]; have /nth_Some_ex [c e] : (i < size lg_combination)%N by rewrite lg_size.
have [_ m] := nth_Some e; rewrite /lg_launch /lg_config e /=.
case: c m e => [[[lv T] D] [[[k s] sc] a]]; rewrite lg_mem => /and4P [_ _ _ /(allP rows_ok)] /=.
case: obind => // im /and4P [/allP h1 /allP h2 h3 h4] e; exists (lv, T, D, (k, s, sc, a)), im; split=> // b E.
by move: h4; rewrite E => /eqP.
Qed.

Lemma lg_once lv r : (- 60%:Z <= lv)%R -> (lv <= 30%:Z)%R -> r \in lg_rows ->
  exists! i, i \in lg_array /\ lg_config i = Some (lv, 10, 10, r).
Proof.
move=> l1 l2 mr; apply: once_gen; [exact: lg_uniq|exact: lg_size|].
by rewrite lg_mem lv_mem l1 l2 mr.
Qed.

Lemma lg_files i j c c' : lg_config i = Some c -> lg_config j = Some c' -> lg_file c = lg_file c' -> i = j.
Proof.
move=> e e' f; have cc : c = c' by case: c c' f {e e'} => [[[? ?] ?] [[[? ?] ?] ?]] [[[? ?] ?] [[[? ?] ?] ?]] [-> -> -> -> -> -> ->].
by rewrite -cc in e'; exact: (inj_gen lg_uniq e e').
Qed.

(** ** Stochastic volatility *)
Lemma sv_launches i : i \in sv_array -> exists im, sv_launch i = Some im.
Proof.
have : all (fun i => isSome (sv_launch i)) sv_array by vm_compute.
by move/allP => H /H; case: (sv_launch i) => // im _; exists im.
Qed.

Lemma sv_fails i : (i < size sv_combination)%N -> (sv_launch i = None <-> i %% 14 \in [:: 10; 11; 12]).
Proof.
have s : size sv_combination = 56 by vm_compute.
have : all (fun i => (~~ isSome (sv_launch i)) == (i %% 14 \in [:: 10; 11; 12])) (iota 0 56) by vm_compute.
rewrite s => /allP /(_ i); rewrite mem_iota add0n /= => H /H /eqP <-.
by case: (sv_launch i).
Qed.

Lemma sv_twice : sv_config 2 = sv_config 5 /\ sv_config 2 <> None. Proof. by split; vm_compute. Qed.

(** TP and MALA are in no configuration; their files are read. *)
Lemma sv_never i c : sv_config i = Some c -> let: (_, _, _, (k, _)) := c in k \notin [:: TP; MALA].
Proof.
have : all (fun c : nat * nat * nat * (kernel_type * style) => let: (_, _, _, (k, _)) := c in k \notin [:: TP; MALA]) sv_combination by vm_compute.
by move=> /allP H /nth_Some [_ /H].
Qed.

Lemma sv_unread : exists f, f \in sv_files_read /\ forall i c, sv_config i = Some c -> sv_file c <> f.
Proof.
exists (TP, 128%N, 10%N, s_na, 75%N); split; first by vm_compute.
by move=> i [[[T tau] tg] [k s]] /sv_never /= nk [ek _ _ _ _]; rewrite ek in nk.
Qed.

(** *** Dispatch *)
(** The styles the error messages of the factories offer (lgssm_scaling/kernels.py:116, 145, 193, 223);
    the other factories take any style. *)
Definition offered (k : kernel_type) : seq style :=
  match k with
  | CSMC => [:: s_bootstrap]
  | TP_CSMC | ADAPTED_CSMC => [:: s_marginal; s_filtering; s_smoothing; s_twisted]
  | MALA_CSMC => [:: s_marginal; s_filtering; s_smoothing]
  | MALA | RW => [:: s_marginal; s_auxiliary]
  | TP | RW_CSMC | IMH => [:: s_bootstrap; s_na; s_filtering; s_marginal; s_twisted; s_smoothing; s_auxiliary]
  end.
Definition reads_style (k : kernel_type) : bool := k \notin [:: TP; RW_CSMC; IMH].
(** The gradient of the potential replaced by zero. *)
Definition stopped (i : impl) : option impl :=
  match i with
  | Ktp_csmc false => Some (Ktp_csmc true) | Katp_f false => Some (Katp_f true) | Katp_s false => Some (Katp_s true)
  | Kt_atp false => Some (Kt_atp true) | Kmala a false => Some (Kmala a true) | _ => None
  end.

Lemma lg_dispatch k s s' :
  [/\ isSome (lg_kernel_maker k s) = (s \in offered k),
      reads_style k -> isSome (lg_kernel_maker k s) -> lg_kernel_maker k s = lg_kernel_maker k s' -> s = s',
      ~~ reads_style k -> lg_kernel_maker k s = lg_kernel_maker k s',
      lg_kernel_maker ADAPTED_CSMC s = obind stopped (lg_kernel_maker TP_CSMC s)
    & lg_kernel_maker RW s = obind stopped (lg_kernel_maker MALA s)].
Proof. by split; case: k; case: s; case: s'. Qed.

Lemma sv_dispatch k s : sv_kernel_maker k s = if (value k < 7)%N then lg_kernel_maker k s else None.
Proof. by case: k; case: s. Qed.
