(** * Property theorems C81: the tables of the stochastic volatility results.  Statements only; the proofs are in
    TablesProofs.v.

    The columns, frames and names (Tables.v) model results_analysis.py:95-239; TablesSpec.v says what a table shows. *)
From Coq Require Import Reals.
From mathcomp Require Import all_ssreflect all_algebra.
From Verif Require Import RInst Experiments Diagnostics Tables TablesSpec TablesProofs TablesAcf.

Set Implicit Arguments.
Unset Strict Implicit.
Unset Printing Implicit Defensive.
Import GRing.Theory Num.Theory Order.TTheory.
Local Open Scope ring_scope.

(** ** C81 *)
(** Every recorded array of the shape that experiment.py saves is shown with the right labels. *)
Theorem C81_columns (K M n T D step : nat) (conf : R) : (0 < n)%N -> (0 < step)%N ->
  [/\ forall delta, shape2 delta K T ->
        shows (delta_column K T delta) (fun lb => (lb.1 < K)%N /\ (lb.2 < T)%N) (fun lb => at2 delta lb.1 lb.2),
      forall pct, shape3 pct K M T ->
        shows (acceptance_rate_column K M T pct)
          (fun lb => [/\ (lb.1.1 < K)%N, (lb.1.2 < M)%N & (lb.2 < T)%N]) (fun lb => at3 pct lb.1.1 lb.1.2 lb.2),
      forall xs, shape3 xs K T D ->
        shows (trajectory_column K T D xs)
          (fun lb => [/\ (lb.1.1 < K)%N, (lb.1.2 < T)%N & (lb.2 < D)%N]) (fun lb => at3 xs lb.1.1 lb.1.2 lb.2),
      forall L acfs, shape2 acfs K L.+1 ->
        shows (energy_acf_column K L acfs) (fun lb => (lb.1 < K)%N /\ (lb.2 <= L)%N) (fun lb => at2 acfs lb.1 lb.2) &
      forall energy, shape3 energy K n M ->
        shows (energy_column K M n step energy)
          (fun lb => [/\ (lb.1.1 < K)%N, (lb.1.2 < M)%N, (lb.2 < n)%N & (step %| lb.2)%N])
          (fun lb => - at3 energy lb.1.1 lb.2 lb.1.2)].
Proof.
move=> n0 s0; split=> *; [exact: delta_shows|exact: column3_shows|exact: column3_shows|exact: acf_shows|exact: energy_shows].
Qed.
Print Assumptions C81_columns.

(** The autocorrelations of C79, at the lags 0 to [L], are shown when there are more than [L] samples ([MAX_LAG] = 249 of
    45000), and otherwise refused (unless there is one number to show). *)
Theorem C81_energy_acf (K L n C : nat) (x : nat -> nat -> nat -> R) (r : nat -> seq R) : (0 < n)%N ->
  (forall k, (k < K)%N -> cross_chains_autocorr L n C (x k) = Some (r k)) ->
  let column := energy_acf_column K L [seq r k | k <- iota 0 K] in
  ((L < n)%N -> shows column (fun lb => (lb.1 < K)%N /\ (lb.2 <= L)%N) (fun lb => (r lb.1)`_(lb.2))) /\
  ((n <= L)%N -> (0 < K)%N -> (1 < n * K)%N -> column = None).
Proof. exact: energy_acf_tables. Qed.
Print Assumptions C81_energy_acf.

(** Means, and the ends of the interval around them. *)
Theorem C81_means (K M T D : nat) (conf : R) means stds : shape4 means K M T D -> shape4 stds K M T D ->
  let dom := fun lb : nat * nat * nat * nat => [/\ (lb.1.1.1 < K)%N, (lb.1.1.2 < M)%N, (lb.1.2 < T)%N & (lb.2 < D)%N] in
  let entry a (lb : nat * nat * nat * nat) := at4 a lb.1.1.1 lb.1.1.2 lb.1.2 lb.2 in
  [/\ shows (mean_column K M T D means) dom (entry means),
      shows (conf_column K M T D conf true means stds) dom (fun lb => entry means lb + conf * entry stds lb) &
      shows (conf_column K M T D conf false means stds) dom (fun lb => entry means lb - conf * entry stds lb)].
Proof.
by move=> h1 h2; split; [exact: column4_shows|exact: (conf_shows conf true h1 h2)|exact: (conf_shows conf false h1 h2)].
Qed.
Print Assumptions C81_means.

(** Effective sample sizes: the least, the median and the greatest over the components, also per second. *)
Theorem C81_ess (K T D : nat) ess times : (0 < D)%N -> shape3 ess K T D -> shape1 times K ->
  exists s1 s2 : ess_stat * nat * nat -> R,
    [/\ shows (ess_column K T ess) (fun lb => (lb.1.2 < K)%N /\ (lb.2 < T)%N) (fun lb => Some (s1 lb)),
        shows (ess_time_column K T ess times) (fun lb => (lb.1.2 < K)%N /\ (lb.2 < T)%N) (fun lb => Some (s2 lb)) &
        forall s i j, (i < K)%N -> (j < T)%N ->
          is_stat s [seq at3 ess i j k | k <- iota 0 D] (s1 (s, i, j)) /\
          is_stat s [seq at3 ess i j k / times`_i | k <- iota 0 D] (s2 (s, i, j))].
Proof. exact: ess_tables. Qed.
Print Assumptions C81_ess.

(** A summary is determined by its description. *)
Theorem C81_stat_unique s row a b : (0 < size row)%N -> is_stat s row a -> is_stat s row b -> a = b.
Proof. exact: stat_unique. Qed.
Print Assumptions C81_stat_unique.

(** An array of another size is refused, unless it has one entry. *)
Theorem C81_size (L : eqType) (index : seq L) vals : iloc_all index vals = None <-> (size vals != size index) && (size vals != 1%N).
Proof. exact: iloc_none. Qed.
Print Assumptions C81_size.

(** The tables need every file; the column of a name holds what the file of its kernel holds. *)
Theorem C81_frame (F : Type) (A : eqType) (load : kernel_type -> style -> nat -> option F) (column : F -> option A) :
  (frame load column = None <->
     exists tau nm ks, [/\ tau \in [:: 10; 50; 100; 200]%N, nm \in (name_in_paper : seq [eqType of first_line * option (nat * bool)]),
       name_to_kernel_style nm = Some ks & obind column (load ks.1 ks.2 tau) = None]) /\
  forall t, frame load column = Some t -> forall tau (nm : [eqType of first_line * option (nat * bool)]) a,
    ((tau, nm), a) \in (t : seq [eqType of nat * (first_line * option (nat * bool)) * A]) <->
    [/\ tau \in [:: 10; 50; 100; 200]%N, nm \in name_in_paper &
        exists2 ks, name_to_kernel_style nm = Some ks & obind column (load ks.1 ks.2 tau) = Some a].
Proof. by split; [exact: frame_none_iff|exact: frame_some_iff]. Qed.
Print Assumptions C81_frame.

(** A name stands for the kernel it describes; the two dictionaries are inverse to each other. *)
Theorem C81_names (nm : [eqType of first_line * option (nat * bool)]) : nm \in name_in_paper ->
  exists2 ks, name_to_kernel_style nm = Some ks /\ kernel_style_to_name ks = Some nm &
  exists2 i, sv_kernel_maker ks.1 ks.2 = Some i & kernel_does i = name_says nm.
Proof. exact: names_kernels. Qed.
Print Assumptions C81_names.

(** Every (kernel, style) of the experiments has exactly one name; the groups that the plots compare are what they are called. *)
Theorem C81_groups :
  (forall ks : [eqType of kernel_type * style], ks \in kernel_style_lst ->
     exists2 nm, kernel_style_to_name ks = Some nm & nm \in (name_in_paper : seq [eqType of first_line * option (nat * bool)])
       /\ name_to_kernel_style nm = Some ks) /\
  forall nm : [eqType of first_line * option (nat * bool)],
  [/\ (nm \in ALL_GAUSSIAN_KERNELS) = (nm \in name_in_paper) && f_gaussian (name_says nm),
      (nm \in NON_GAUSSIAN_KERNELS) = (nm \in name_in_paper) && ~~ f_gaussian (name_says nm),
      (nm \in NON_GAUSSIAN_KERNELS_WITHOUT_EXCLUDED) =
        [&& nm \in name_in_paper, ~~ f_gaussian (name_says nm), f_particles (name_says nm) & (nm.1 != n_CSMC)],
      (nm \in GAUSSIAN_KERNELS) = [&& nm \in name_in_paper, f_gaussian (name_says nm) & ~~ f_twisted (name_says nm)] &
      (nm \in TWISTED_KERNELS) = (nm \in name_in_paper) && (f_twisted (name_says nm) || (nm.1 == n_aGRAD))].
Proof. by split; [exact: styles_names|exact: groups_all]. Qed.
Print Assumptions C81_groups.

(** A table that is written and read back is the same table. *)
Theorem C81_reload (L : Type) (index : seq L) vals rows : iloc_all index vals = Some rows -> reload index rows = Some rows.
Proof. exact: reload_same. Qed.
Print Assumptions C81_reload.

(** Hypotheses are met: arrays of the shapes exist, and so do all files. *)
Example ex_shapes : shape3 [:: [:: [:: 1 : R; 0]; [:: 0; 1]]; [:: [:: 1; 1]; [:: 0; 0]]] 2 2 2 /\ shape1 [:: 1; 1 : R] 2.
Proof. by split=> //; split=> // -[|[|i]] // _; split=> // -[|[|j]]. Qed.
Example ex_median : np_median [:: 1; 0] = 2%:R^-1 /\ is_median [:: 1; 0] (2%:R^-1).
Proof. exact: median_example. Qed.
Example ex_frame : exists t, frame (fun _ _ tau => Some tau) (fun tau : nat => Some tau) = Some t.
Proof. by eexists. Qed.
