(** * Tables: model of the tables that stochastic_volatility/results/results_analysis.py:79-278 builds from the files of the
    experiment.

    Arrays are nested sequences, the first axis outermost.  [None]: the script raises an exception.  Not modelled: the
    text of the csv files (numbers are read back as written), the plots. *)
From Coq Require Import Reals.
From mathcomp Require Import all_ssreflect all_algebra.
From Verif Require Import RInst Experiments.

Set Implicit Arguments.
Unset Strict Implicit.
Unset Printing Implicit Defensive.
Import GRing.Theory Num.Theory Order.TTheory.
Local Open Scope ring_scope.

(** ** Names *)
(** results_analysis.py:95-110: the strings, as their first line and their second line (kappa, twisted). *)
Inductive first_line :=
| n_CSMC | n_Particle_RWM | n_Particle_aGRAD | n_Particle_mGRAD | n_Particle_aMALA | n_Particle_MALA | n_Particle_aMALA_plus
| n_aGRAD | n_aMALA | n_MALA.
Definition first_line_dec (a b : first_line) : {a = b} + {a <> b}. Proof. by decide equality. Defined.
Canonical first_line_eqType := EqType first_line (comparableMixin first_line_dec).
Definition paper_name : Type := first_line * option (nat * bool).
Definition name_in_paper : seq paper_name :=
  [:: (n_CSMC, None); (n_Particle_RWM, None); (n_Particle_aGRAD, Some (0%N, false)); (n_Particle_mGRAD, Some (0%N, false));
      (n_Particle_aGRAD, Some (0%N, true)); (n_Particle_aMALA, None); (n_Particle_MALA, None); (n_Particle_aMALA_plus, None);
      (n_aGRAD, None); (n_Particle_aGRAD, Some (1%N, false)); (n_Particle_mGRAD, Some (1%N, false));
      (n_Particle_aGRAD, Some (1%N, true)); (n_aMALA, None); (n_MALA, None)].
(** Lines 112-144. *)
Definition NON_GAUSSIAN_KERNELS : seq paper_name :=
  [:: (n_CSMC, None); (n_Particle_RWM, None); (n_Particle_aMALA, None); (n_Particle_MALA, None);
      (n_Particle_aMALA_plus, None); (n_aMALA, None); (n_MALA, None)].
Definition EXCLUDED_KERNELS : seq paper_name := [:: (n_CSMC, None); (n_aMALA, None); (n_MALA, None)].
Definition NON_GAUSSIAN_KERNELS_WITHOUT_EXCLUDED : seq paper_name :=
  [seq k <- NON_GAUSSIAN_KERNELS | k \notin (EXCLUDED_KERNELS : seq [eqType of first_line * option (nat * bool)])].
Definition GAUSSIAN_KERNELS : seq paper_name :=
  [:: (n_Particle_aGRAD, Some (0%N, false)); (n_Particle_mGRAD, Some (0%N, false)); (n_Particle_aGRAD, Some (1%N, false));
      (n_Particle_mGRAD, Some (1%N, false)); (n_aGRAD, None)].
Definition TWISTED_KERNELS : seq paper_name :=
  [:: (n_aGRAD, None); (n_Particle_aGRAD, Some (0%N, true)); (n_Particle_aGRAD, Some (1%N, true))].
Definition ALL_GAUSSIAN_KERNELS : seq paper_name :=
  GAUSSIAN_KERNELS ++ [seq k <- TWISTED_KERNELS | k \notin (GAUSSIAN_KERNELS : seq [eqType of first_line * option (nat * bool)])].
(** Lines 145-146: [dict(zip(keys, values))]: the last entry of a key counts; [None]: KeyError. *)
Definition dict_get (A : eqType) (B : Type) (entries : seq (A * B)) (a : A) : option B :=
  ohead [seq e.2 | e <- rev entries & e.1 == a].
Definition name_to_kernel_style (nm : paper_name) : option (kernel_type * style) :=
  dict_get (zip (name_in_paper : seq [eqType of first_line * option (nat * bool)]) kernel_style_lst) nm.
Definition kernel_style_to_name (ks : kernel_type * style) : option paper_name :=
  dict_get (zip (kernel_style_lst : seq [eqType of kernel_type * style]) name_in_paper) ks.

(** ** Row labels *)
(** [range(0, n, step)]; lines 148-153 have [step] 1 except [samples_range]. *)
Definition range_step (n step : nat) : seq nat := [seq (step * i)%N | i <- iota 0 ((n + step.-1) %/ step)].
Inductive ess_stat := st_min | st_med | st_max.
Definition ess_stat_dec (a b : ess_stat) : {a = b} + {a <> b}. Proof. by decide equality. Defined.
Canonical ess_stat_eqType := EqType ess_stat (comparableMixin ess_stat_dec).

(** The constants of lines 17-30: [K = N_EXPERIMENTS = 5], [M = N_CHAINS = 4], [n = N_SAMPLES = 45000],
    [T = 128], [D = 30], [step = ENERGY_SUBSAMPLE = 100], [STD_CONFIDENCE = 1.96]; the defaults of experiment.py:31-37
    are the same. *)
Section Tables.
Variables (K M n T D step : nat) (conf : R).

(** Lines 157-176, [MultiIndex.from_product]. *)
Definition energy_index := product (product (iota 0 K) (iota 0 M)) (range_step n step).
Definition ess_index := product (product [:: st_min; st_med; st_max] (iota 0 K)) (iota 0 T).
Definition true_trajectory_index := product (product (iota 0 K) (iota 0 T)) (iota 0 D).
Definition marginal_mean_index := product (product (product (iota 0 K) (iota 0 M)) (iota 0 T)) (iota 0 D).
Definition acceptance_rate_index := product (product (iota 0 K) (iota 0 M)) (iota 0 T).
Definition delta_index := product (iota 0 K) (iota 0 T).
Definition energy_acf_index (max_lag : nat) := product (iota 0 K) (iota 0 max_lag.+1).

(** ** Columns *)
(** [df[column].iloc[:] = values] (lines 210-217, 226-227): the lengths have to agree, or a single value is repeated. *)
Definition iloc_all (L : Type) (index : seq L) (values : seq R) : option (seq (L * R)) :=
  if size values == size index then Some (zip index values)
  else if values is [:: v] then Some [seq (l, v) | l <- index] else None.
(** [df[column].loc[s] = values] (lines 219-225): the rows whose first label is [s], in order. *)
Fixpoint fill (L : Type) (p : L -> bool) (rows : seq (L * option R)) (values : seq R) : seq (L * option R) :=
  if rows is row :: rows' then
    if p row.1 then
      if values is v :: values' then (row.1, Some v) :: fill p rows' values' else row :: rows'
    else row :: fill p rows' values
  else [::].
Definition loc_set (L : Type) (p : L -> bool) (values : seq R) (rows : seq (L * option R)) : option (seq (L * option R)) :=
  if size values == count p (unzip1 rows) then Some (fill p rows values) else None.

(** [a[::k]] and the transpose of the last two axes, for one experiment. *)
Definition every (A : Type) (a0 : A) (k : nat) (s : seq A) : seq A := [seq nth a0 s i | i <- range_step (size s) k].
Definition transpose (a : seq (seq R)) : seq (seq R) := [seq [seq row`_j | row <- a] | j <- iota 0 (size (head [::] a))].
(** Line 210: [np.transpose(-data["energy"][:, ::ENERGY_SUBSAMPLE], [0, 2, 1]).flatten()]. *)
Definition energy_column (energy : seq (seq (seq R))) :=
  iloc_all energy_index (flatten (flatten [seq transpose [seq [seq - v | v <- row] | row <- every [::] step e] | e <- energy])).
(** Lines 211, 226, 227, 216-217: [.flatten()] of arrays of two and three axes. *)
Definition energy_acf_column (max_lag : nat) (acfs : seq (seq R)) := iloc_all (energy_acf_index max_lag) (flatten acfs).
Definition acceptance_rate_column (final_pct : seq (seq (seq R))) := iloc_all acceptance_rate_index (flatten (flatten final_pct)).
Definition delta_column (delta : seq (seq R)) := iloc_all delta_index (flatten delta).
Definition trajectory_column (xs : seq (seq (seq R))) := iloc_all true_trajectory_index (flatten (flatten xs)).
(** Lines 212-214. *)
Definition mean_column (means : seq (seq (seq (seq R)))) := iloc_all marginal_mean_index (flatten (flatten (flatten means))).
Definition conf_column (plus : bool) (means std_devs : seq (seq (seq (seq R)))) :=
  iloc_all marginal_mean_index
    [seq (if plus then p.1 + conf * p.2 else p.1 - conf * p.2)
      | p <- zip (flatten (flatten (flatten means))) (flatten (flatten (flatten std_devs)))].

(** [min(-1)], [max(-1)] and [np.median(., -1)] of one row (a row is not empty: D is positive). *)
Definition np_min (s : seq R) : R := foldr Num.min (head 0 s) s.
Definition np_max (s : seq R) : R := foldr Num.max (head 0 s) s.
Definition np_median (s : seq R) : R :=
  let t := sort <=%R s in (t`_((size s).-1 %/ 2) + t`_(size s %/ 2)) / 2%:R.
(** Lines 219-221; 223-225 divide by the sampling time of the experiment first. *)
Definition ess_column (ess : seq (seq (seq R))) :=
  obind (loc_set (fun l => l.1.1 == st_max) (flatten [seq [seq np_max row | row <- e] | e <- ess]))
  (obind (loc_set (fun l => l.1.1 == st_med) (flatten [seq [seq np_median row | row <- e] | e <- ess]))
  (loc_set (fun l => l.1.1 == st_min) (flatten [seq [seq np_min row | row <- e] | e <- ess])
    [seq (l, None) | l <- ess_index])).
Definition ess_time_column (ess : seq (seq (seq R))) (sampling_time : seq R) :=
  ess_column [seq [seq [seq v / p.2 | v <- row] | row <- p.1] | p <- zip ess sampling_time].

(** ** Frames *)
(** Lines 202-207, for one table: [load] reads the file named by a kernel, a style and a tau ([None]: no such file); [column]
    fills a column from it.  All files are read before the tables are written. *)
Definition TAUS : seq nat := [:: 10; 50; 100; 200]%N.
Definition frame (F A : Type) (load : kernel_type -> style -> nat -> option F) (column : F -> option A) : option (seq (nat * paper_name * A)) :=
  foldr (fun (c : nat * paper_name) acc =>
      obind (fun rest => obind (fun ks : kernel_type * style => obind (fun file => omap (fun a => (c, a) :: rest) (column file))
        (load ks.1 ks.2 c.1)) (name_to_kernel_style c.2)) acc)
    (Some [::]) (product TAUS name_in_paper).
(** Lines 229-239, 244-266: the values of a column written to a csv file and read back get the index again, by position
    ([set_index]). *)
Definition reload (L : Type) (index : seq L) (rows : seq (L * R)) := iloc_all index (unzip2 rows).
End Tables.
