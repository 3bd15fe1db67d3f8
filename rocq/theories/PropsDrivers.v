(** * Property theorems C34-C37 (and C16 for the loops): mcmc_utils.py, pbar.py, the loops of
    tp.py and t_atp_csmc_f.py.  Statements only; the proofs are in DriverProofs. *)
From Coq Require Import Reals.
From mathcomp Require Import all_ssreflect all_algebra.
From Verif Require Import RInst Prog ProgTheory SingleSpec Drivers DriverSpec DriverProofs.

Set Implicit Arguments.
Unset Strict Implicit.
Unset Printing Implicit Defensive.
Import GRing.Theory Num.Theory Order.TTheory.
Local Open Scope ring_scope.

(** ** C34 *)
(** Any kernel, any initial step sizes; [agg]: any summary of the acceptance rates. *)
Theorem C34_interval (X : Type) (I : eqType) (T : nat)
    (K : key -> X * ('I_T -> I) -> ('I_T -> R) -> prog (X * ('I_T -> I))) cfg key init d0 n :
  min_delta cfg <= max_delta cfg ->
  always (fun r => forall t, min_delta cfg <= r.2 t <= max_delta cfg) (mcmc_adaptation K cfg key init d0 n.+1).
Proof. exact: mcmc_in. Qed.
Print Assumptions C34_interval.

Theorem C34_interval_t_atp (X : Type) (I : eqType) (T : nat) (agg : ('I_T -> option R) -> option R)
    (K : key -> X * ('I_T -> I) -> ('I_T -> R) -> prog (X * ('I_T -> I))) cfg key init d0 n :
  min_delta cfg <= max_delta cfg ->
  always (fun r => forall t, min_delta cfg <= r.2 t <= max_delta cfg) (t_atp_adaptation agg K cfg key init d0 n.+1).
Proof. exact: t_atp_in. Qed.
Print Assumptions C34_interval_t_atp.

Theorem C34_interval_tp (S : Type) (K : key -> S -> R -> prog (S * bool)) cfg key init d0 n :
  min_delta cfg <= max_delta cfg ->
  always (fun r => min_delta cfg <= r.2 <= max_delta cfg) (tp_adaptation K cfg key init d0 n.+1).
Proof. exact: tp_in. Qed.
Print Assumptions C34_interval_tp.

(** ** C35 *)
(** Every result of the loop is the end of a path [St] of the chain, with step sizes [D], such
    that each iteration calls the kernel with the current step sizes and its own key, and
    changes the step sizes as described by [adapted] (DriverSpec). *)
Local Notation adapted cfg :=
  (adapted (target_acceptance cfg) (min_delta cfg) (max_delta cfg) (window_size cfg) (min_rate cfg) (rate cfg)).

Theorem C35_direction (X : Type) (I : eqType) (T : nat)
    (K : key -> X * ('I_T -> I) -> ('I_T -> R) -> prog (X * ('I_T -> I))) cfg key init d0 n r :
  0 < target_acceptance cfg -> 0 < min_rate cfg -> 0 < min_delta cfg ->
  min_delta cfg <= max_delta cfg -> (0 < window_size cfg)%N ->
  outcome (mcmc_adaptation K cfg key init d0 n) r ->
  exists (St : nat -> X * ('I_T -> I)) (D : nat -> 'I_T -> R),
  [/\ St 0%N = init, D 0%N = d0, r = (St n, D n) & forall i, (i < n)%N ->
    outcome (K (split key i) (St i) (D i)) (St i.+1) /\
    forall t, adapted cfg i (recent_rate (window_size cfg) i (fun j => (St j.+1).2 t != (St j).2 t)) (D i t) (D i.+1 t)].
Proof. by move=> h1 h2 h3 h4 h5; apply: mcmc_trace. Qed.
Print Assumptions C35_direction.

(** t_atp_csmc_f.py, for any summary [agg] computing [f] of the rates of the T times... *)
Theorem C35_direction_t_atp (X : Type) (I : eqType) (T : nat) (agg : ('I_T -> option R) -> option R) (f : ('I_T -> R) -> R)
    (K : key -> X * ('I_T -> I) -> ('I_T -> R) -> prog (X * ('I_T -> I))) cfg key init d0 n r :
  0 < target_acceptance cfg -> 0 < min_rate cfg -> 0 < min_delta cfg ->
  min_delta cfg <= max_delta cfg -> (0 < window_size cfg)%N ->
  (forall v, agg (fun t => Some (v t)) = Some (f v)) ->
  outcome (t_atp_adaptation agg K cfg key init d0 n) r ->
  exists (St : nat -> X * ('I_T -> I)) (D : nat -> 'I_T -> R),
  [/\ St 0%N = init, D 0%N = d0, r = (St n, D n) & forall i, (i < n)%N ->
    outcome (K (split key i) (St i) (D i)) (St i.+1) /\
    forall t, adapted cfg i (f (fun u => recent_rate (window_size cfg) i (fun j => (St j.+1).2 u != (St j).2 u))) (D i t) (D i.+1 t)].
Proof. by move=> h1 h2 h3 h4 h5; apply: t_atp_trace. Qed.
Print Assumptions C35_direction_t_atp.

(** ... and the default summary is their mean. *)
Theorem C35_mean (T : nat) (v : 'I_T.+1 -> R) : agg_mean (fun t => Some (v t)) = Some ((\sum_t v t) / T.+1%:R).
Proof. exact: agg_meanE. Qed.
Print Assumptions C35_mean.

(** tp.py: the indicators are those returned by the kernel. *)
Theorem C35_direction_tp (S : Type) (K : key -> S -> R -> prog (S * bool)) cfg key init d0 n r :
  0 < target_acceptance cfg -> 0 < min_rate cfg -> 0 < min_delta cfg ->
  min_delta cfg <= max_delta cfg -> (0 < window_size cfg)%N ->
  outcome (tp_adaptation K cfg key init d0 n) r ->
  exists (St : nat -> S) (D : nat -> R) (A : nat -> bool),
  [/\ St 0%N = init, D 0%N = d0, r = (St n, D n) & forall i, (i < n)%N ->
    outcome (K (split key i) (St i) (D i)) (St i.+1, A i) /\
    adapted cfg i (recent_rate (window_size cfg) i A) (D i) (D i.+1)].
Proof. exact: tp_trace. Qed.
Print Assumptions C35_direction_tp.

(** ** C36 *)
(** [get_samples = k]: the loop is [n] calls of the kernel, one per key; it returns every
    [k]-th visited state and the indicators of change with respect to the state just before,
    or, for 0, the last state. *)
Theorem C36_records (X : Type) (I : eqType) (T : nat) (K : key -> X * ('I_T -> I) -> prog (X * ('I_T -> I))) key s n k :
  mcmc_sampling K key s n k =
  do l <- visited K [seq split key i | i <- iota 0 n] s;
  Ret (if k == 0%N then inr (last s l)
       else inl (thinned s.1 k [seq x.1 | x <- l],
                 thinned (fun=> false) k (pairmap (fun a b => fun t : 'I_T => b.2 t != a.2 t) s l))).
Proof. exact: mcmc_samplingE. Qed.
Print Assumptions C36_records.

Theorem C36_records_tp (X C : Type) (K : key -> X * C -> prog (X * C * bool)) key s n k :
  tp_sampling K key s n k =
  do l <- visited (fun key x => K key x.1) [seq split key i | i <- iota 0 n] (s, false);
  Ret (if k == 0%N then inr ((last (s, false) l).1.1, [seq x.2 | x <- l])
       else inl (thinned s.1 k [seq x.1.1 | x <- l], thinned false k [seq x.2 | x <- l])).
Proof. exact: tp_samplingE. Qed.
Print Assumptions C36_records_tp.

(** If each call of the kernel leaves a target invariant, so does the whole loop. *)
Theorem C36_keeps_target (S : finType) (target : S -> R) (K : key -> S -> prog S) keys :
  (forall k, keeps_target target (K k)) ->
  keeps_target target (fun s => do l <- visited K keys s; Ret (last s l)).
Proof. exact: visited_keeps. Qed.
Print Assumptions C36_keeps_target.

(** ** C37 *)
Theorem C37_same_loop (C I O : Type) (func : C -> nat * I -> prog (C * O)) n c ins :
  (do r <- scan (wrapper_progress_bar n func) c ins; Ret (r.1, [seq o.1 | o <- r.2])) = scan func c ins.
Proof. exact: wrapper_forget. Qed.
Print Assumptions C37_same_loop.

(** One creation, then updates whose total is the number of samples, then one closing. *)
Theorem C37_accounts (C I O : Type) (func : C -> nat * I -> prog (C * O)) n c ins :
  (0 < n)%N -> [seq x.1 | x <- ins] = iota 0 n ->
  always (fun r => exists us, flatten [seq o.2 | o <- r.2] = Define :: map Update us ++ [:: Close] /\ sumn us = n)
    (scan (wrapper_progress_bar n func) c ins).
Proof. exact: wrapper_bar. Qed.
Print Assumptions C37_accounts.

(** ** C16 *)
Theorem C16_keys_loops (X S S' J : Type) (I : eqType) (T : nat) (K : key -> S -> (J -> R) -> prog S') next acc stat cfg
    (K2 : key -> X * ('I_T -> I) -> prog (X * ('I_T -> I))) (K3 : key -> X * S -> prog (X * S * bool)) key init d0 s s3 n k :
  [/\ (forall key s d, uses [:: key] (K key s d)) -> uses [:: key] (adapt_routine K next acc stat cfg key init d0 n),
      (forall key s, uses [:: key] (K2 key s)) -> uses [:: key] (mcmc_sampling K2 key s n k)
    & (forall key s, uses [:: key] (K3 key s)) -> uses [:: key] (tp_sampling K3 key s3 n k)].
Proof. by split; [apply: uses_adapt|apply: uses_mcmc_sampling|apply: uses_tp_sampling]. Qed.
Print Assumptions C16_keys_loops.

(** ** The hypotheses are met *)
Example ex_cfg_meets : exists cfg, [/\ 0 < target_acceptance cfg, 0 < min_rate cfg, 0 < min_delta cfg,
  min_delta cfg <= max_delta cfg & (0 < window_size cfg)%N].
Proof. by exists ex_cfg; exact: ex_cfg_ok. Qed.
(** A run in which a step size increases. *)
Example ex_increase : exists r, outcome (mcmc_adaptation ex_kernel ex_cfg [::] (tt, fun=> false) (fun=> 1) 3) r /\ 1 < r.2 ord0.
Proof. exact: ex_adapts. Qed.
(** The indices of the loops are 0, 1, ..., n-1, as asked by C37. *)
Example ex_indices key n : [seq x.1 | x <- [seq (i, split key i) | i <- iota 0 n]] = iota 0 n.
Proof. by rewrite -map_comp map_id. Qed.
Example ex_thinned : thinned 0%N 3 [:: 0; 1; 2; 3; 4; 5; 6; 7]%N = [:: 0; 3; 6]%N.
Proof. by []. Qed.
