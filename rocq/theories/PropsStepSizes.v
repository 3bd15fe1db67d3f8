(** * Property theorems C83, C84: the logarithm of common.py and the step sizes of the scaling experiment.  Statements only;
    the proofs are in StepSizesProofs.v. *)
From Coq Require Import Reals.
From mathcomp Require Import all_ssreflect all_algebra.
From Verif Require Import RInst Experiments StepSizes StepSizesSpec StepSizesProofs.

Set Implicit Arguments.
Unset Strict Implicit.
Unset Printing Implicit Defensive.
Import GRing.Theory Num.Theory Order.TTheory.
Local Open Scope ring_scope.

(** ** C83 *)
(** Full claim (the docstring): every entry x < 0 becomes log (1 - exp x).  It is false: the shift by the greatest entry is
    undone as if the logarithm were that of a product. *)
Theorem C83_log_1_m_exp_refuted : exists n (arr : 'I_n.+1 -> R) i,
  arr i < 0 /\ log_1_m_exp arr i <> Some (ln (1 - exp (arr i))).
Proof. exact: no_scale. Qed.
Print Assumptions C83_log_1_m_exp_refuted.

(** The greatest entry always gives minus infinity, *)
Theorem C83_at_greatest n (arr : 'I_n.+1 -> R) m i : greatest arr m -> arr i = m -> log_1_m_exp arr i = None.
Proof. exact: log_at_max. Qed.
Print Assumptions C83_at_greatest.

(** the other ones log (exp m - exp x), *)
Theorem C83_below n (arr : 'I_n.+1 -> R) m i : greatest arr m -> arr i < m ->
  log_1_m_exp arr i = Some (ln (exp m - exp (arr i))).
Proof. exact: log_below. Qed.
Print Assumptions C83_below.

(** which is what the docstring says exactly when the greatest entry is 0. *)
Theorem C83_log_1_m_exp_partial n (arr : 'I_n.+1 -> R) m i : greatest arr m -> arr i < m -> arr i < 0 ->
  log_1_m_exp arr i = Some (ln (1 - exp (arr i))) <-> m = 0.
Proof. exact: log_iff. Qed.
Print Assumptions C83_log_1_m_exp_partial.

Example ex_greatest : greatest (fun i : 'I_2 => if i == ord0 then -1 else 0 : R) 0.
Proof. by split=> [i|]; [case: ifP; rewrite ?lerN10|exists (lift ord0 ord0)]. Qed.

(** ** C84 *)
(** The step size times the power of the size asked for is [--delta]. *)
Theorem C84_law (delta s d : R) D T : (0 < D)%N -> (0 < T)%N ->
  [/\ DELTA arg_D delta s D T = Some d <-> d * Rpower D%:R s = delta,
      DELTA arg_T delta s D T = Some d <-> d * Rpower T%:R s = delta,
      DELTA arg_DT delta s D T = Some d <-> d * Rpower (D%:R * T%:R) s = delta,
      DELTA arg_TD delta s D T = Some d <-> d * Rpower (D%:R * T%:R) s = delta &
      DELTA arg_other delta s D T = Some d <-> d = delta].
Proof. exact: delta_iff. Qed.
Print Assumptions C84_law.

(** It fails exactly when that size is 0. *)
Theorem C84_fails (delta s : R) D T : 0 < s ->
  [/\ DELTA arg_D delta s D T = None <-> D = 0%N, DELTA arg_T delta s D T = None <-> T = 0%N,
      DELTA arg_DT delta s D T = None <-> D = 0%N \/ T = 0%N,
      DELTA arg_TD delta s D T = None <-> D = 0%N \/ T = 0%N & DELTA arg_other delta s D T <> None].
Proof. exact: delta_none. Qed.
Print Assumptions C84_fails.

(** Larger problems do not get larger steps. *)
Theorem C84_decreasing a (delta s : R) D T D' T' d d' : 0 <= delta -> 0 <= s -> (0 < D <= D')%N -> (0 < T <= T')%N ->
  DELTA a delta s D T = Some d -> DELTA a delta s D' T' = Some d' -> d' <= d.
Proof. exact: delta_mono. Qed.
Print Assumptions C84_decreasing.

(** Every run of a grid with any positive sizes has a library kernel and gets a step size d > 0 with d^sc n = 1 (sc the inverse
    of the scale), where n is the dimension of one proposal of that kernel; as an array exactly when the kernel indexes it by
    time. *)
Theorem C84_runs lvs Ts Ds lv T D k s sc a : all (ltn 0%N) Ts -> all (ltn 0%N) Ds ->
  (lv, T, D, (k, s, sc, a)) \in lg_grid lvs Ts Ds ->
  exists i (d : R), [/\ lg_kernel_maker k s = Some i, 0 < d, d ^+ sc * (if whole_path i then D * T else D)%N%:R = 1,
    run_delta (k, s, sc, a) D T = Some (if shape_delta k then Array (nseq T d) else Number d) &
    wants_array i = None \/ wants_array i = Some (shape_delta k)].
Proof. exact: grid_runs. Qed.
Print Assumptions C84_runs.

(** Kernels without gradients only get the scale 1, those with gradients are all run with the scale 1/3. *)
Theorem C84_scale k s sc a i : (k, s, sc, a) \in lg_rows -> lg_kernel_maker k s = Some i ->
  if uses_gradient i then (sc = 1%N \/ sc = 3%N) /\ (k, s, 3%N, a) \in lg_rows else sc = 1%N.
Proof. exact: row_scale. Qed.
Print Assumptions C84_scale.

(** Runs of one grid write different files; the grid that is used is one of these. *)
Theorem C84_files lvs Ts Ds : uniq lvs -> uniq Ts -> uniq Ds -> uniq (map lg_file (lg_grid lvs Ts Ds)).
Proof. exact: grid_files. Qed.
Print Assumptions C84_files.
Theorem C84_grid : lg_combination = lg_grid lg_LOG_SIGMAS [:: 10%N] [:: 10%N].
Proof. exact: combination_3. Qed.
Print Assumptions C84_grid.

(** [--log-var] is the logarithm in base 10 of the variance. *)
Theorem C84_sigma lv : 0 < SIGMA lv /\ ln (SIGMA lv ^+ 2) = lv * ln 10%:R.
Proof. exact: sigma_law. Qed.
Print Assumptions C84_sigma.

(** A grid as [combination_1], and one of its runs, with a kernel that moves whole paths. *)
Example ex_grid : (0%:Z, 25%N, 4%N, (TP, s_na, 3%N, a_TD)) \in lg_grid [:: 0%:Z] [:: 25%N] [:: 1; 2; 4]%N.
Proof. by []. Qed.
