(** * Drivers: model of the loops of /repo/gradient_csmc/utils/mcmc_utils.py, tp.py:130-214,
    t_atp_csmc_f.py:228-296 and of the progress bar /repo/gradient_csmc/utils/pbar.py. *)
From Coq Require Import Reals.
From mathcomp Require Import all_ssreflect all_algebra.
From Verif Require Import RInst Prog.

Set Implicit Arguments.
Unset Strict Implicit.
Unset Printing Implicit Defensive.
Import GRing.Theory Num.Theory Order.TTheory.
Local Open Scope ring_scope.

(** ** Adaptation of the step sizes *)
(** Arguments of [delta_adaptation_routine] (mcmc_utils.py:7-21, tp.py:130-143,
    t_atp_csmc_f.py:228-243). *)
Record config := Config {
  target_acceptance : R; min_delta : R; max_delta : R; min_rate : R; rate : R; window_size : nat }.

(** [jnp.nanmean]: [None] is NaN. *)
Definition nanmean (A : Type) (val : A -> R) (s : seq (option A)) : option R :=
  if pmap id s is [::] then None
  else Some ((\sum_(b <- pmap id s) val b) / (size (pmap id s))%:R).

(** mcmc_utils.py:39-40 (one row), tp.py:160-161, t_atp_csmc_f.py:262-263 (one column):
    [h.at[1:].set(h[:-1]).at[0].set(a)]. *)
Definition push_history (a : bool) (h : seq (option bool)) : seq (option bool) :=
  if h is x :: h' then Some a :: belast x h' else [::].

(** [jnp.clip(x, lo, hi)]. *)
Definition jclip (x lo hi : R) : R := Num.min (Num.max x lo) hi.

(** mcmc_utils.py:43-53, tp.py:164-174, t_atp_csmc_f.py:277-287, for one step size.  A NaN
    rate compares false, so the second branch of [where] is taken.  [0.05] is 1/20. *)
Definition adapt_delta (cfg : config) (i : nat) (acceptance_rate : option R) (delta : R) : R :=
  let ta := target_acceptance cfg in
  let flag := (if acceptance_rate is Some a
               then (a < ta - 1 / IZR 20) || (ta + 1 / IZR 20 < a) else false)
              && (window_size cfg < i)%N in
  let rate_i := Num.max (min_rate cfg) (rate cfg / sqrt (i.+1)%:R) in
  let delta_otherwise := if acceptance_rate is Some a then delta + rate_i * delta * (a - ta) / ta else delta in
  jclip (if flag then delta_otherwise else delta) (min_delta cfg) (max_delta cfg).

Section Adapt.
(** [S]: state of the chain; [S']: what the kernel returns; [J]: the step sizes;
    [accepted]: the indicators; [stat]: from the mean of each history to the acceptance
    rate used for each step size. *)
Variables (S S' J : Type) (kernel : key -> S -> (J -> R) -> prog S') (next : S' -> S)
  (accepted : S -> S' -> J -> bool) (stat : (J -> option R) -> J -> option R) (cfg : config).

(** [body]: mcmc_utils.py:30-55, tp.py:150-176, t_atp_csmc_f.py:252-289.  The last component
    of the carry, only shown by the progress bar, is left out. *)
Definition adapt_body (carry : S * (J -> R) * (J -> seq (option bool))) (inp : nat * key)
  : prog (S * (J -> R) * (J -> seq (option bool)) * unit) :=
  let: (state, deltas, accepted_history) := carry in
  let: (i, key_i) := inp in
  do out <- kernel key_i state deltas;
  let accepted_history := fun t => push_history (accepted state out t) (accepted_history t) in
  let acceptance_rates := stat (fun t => nanmean (fun b : bool => b%:R) (accepted_history t)) in
  let deltas := fun t => adapt_delta cfg i (acceptance_rates t) (deltas t) in
  Ret ((next out, deltas, accepted_history), tt).

(** mcmc_utils.py:57-62, tp.py:178-182, t_atp_csmc_f.py:291-296. *)
Definition adapt_routine (key : key) (init : S) (initial_deltas : J -> R) (n_steps : nat)
  : prog (S * (J -> R)) :=
  let initial_accepted_history := fun _ : J => nseq (window_size cfg) None in
  do (carry, _) <- scan adapt_body (init, initial_deltas, initial_accepted_history)
                     [seq (i, split key i) | i <- iota 0 n_steps];
  Ret (carry.1.1, carry.1.2).
End Adapt.

(** mcmc_utils.py:7-62: states are (trajectory, indices); one step size per time. *)
Section McmcUtils.
Variables (X : Type) (I : eqType) (T : nat).
Local Notation state := (X * ('I_T -> I))%type.
Definition changed (s s' : state) (t : 'I_T) : bool := s'.2 t != s.2 t.
Definition mcmc_adaptation (kernel : key -> state -> ('I_T -> R) -> prog state) :=
  adapt_routine kernel id changed id.

(** t_atp_csmc_f.py:228-296: the same with one rate [target_stat] of the means of all
    times; [agg] is nanmean, nanmedian, max, min or a quantile. *)
Definition t_atp_adaptation (agg : ('I_T -> option R) -> option R) (kernel : key -> state -> ('I_T -> R) -> prog state) :=
  adapt_routine kernel id changed (fun means _ => agg means).
(** [target_stat == "mean"], the default. *)
Definition agg_mean (means : 'I_T -> option R) : option R := nanmean id [seq means t | t <- enum 'I_T].

(** mcmc_utils.py:65-95; [get_samples]: 0 for False, 1 for True.  [samples[::k]]. *)
Definition every (A : Type) (k : nat) (s : seq A) : seq A :=
  mask [seq (k %| i)%N | i <- iota 0 (size s)] s.

Definition sampling_body (kernel : key -> state -> prog state) (carry : state) (inp : nat * key)
  : prog (state * (X * ('I_T -> bool))) :=
  do next <- kernel inp.2 carry;
  Ret (next, (next.1, changed carry next)).

Definition mcmc_sampling (kernel : key -> state -> prog state) (key : key) (init : state) (n_steps get_samples : nat)
  : prog (seq X * seq ('I_T -> bool) + state) :=
  do (final, out) <- scan (sampling_body kernel) init [seq (i, split key i) | i <- iota 0 n_steps];
  Ret (if get_samples is 0 then inr final
       else inl (every get_samples [seq o.1 | o <- out], every get_samples [seq o.2 | o <- out])).
End McmcUtils.

(** tp.py:130-182: one step size; the kernel returns the new state and the indicator. *)
Definition tp_adaptation (S : Type) (kernel : key -> S -> R -> prog (S * bool)) (cfg : config)
  (key : key) (init : S) (initial_delta : R) (n_steps : nat) : prog (S * R) :=
  do (s, deltas) <- adapt_routine (fun k s (d : unit -> R) => kernel k s (d tt)) fst (fun _ out _ => out.2) id cfg
                  key init (fun=> initial_delta) n_steps;
  Ret (s, deltas tt).

(** tp.py:185-214; a state is (position, cached values). *)
Section TpSampling.
Variables (X C : Type).
Definition tp_sampling_body (kernel : key -> X * C -> prog (X * C * bool)) (xs : X * C) (inp : nat * key)
  : prog (X * C * (X * C * bool)) :=
  do r <- kernel inp.2 xs; Ret (r.1, (r.1, r.2)).

Definition tp_sampling (kernel : key -> X * C -> prog (X * C * bool)) (key : key) (init : X * C) (n_steps get_samples : nat)
  : prog (seq X * seq bool + X * seq bool) :=
  do (final, out) <- scan (tp_sampling_body kernel) init [seq (i, split key i) | i <- iota 0 n_steps];
  Ret (if get_samples is 0 then inr (final.1, [seq o.2 | o <- out])
       else inl (every get_samples [seq o.1.1 | o <- out], every get_samples [seq o.2 | o <- out])).
End TpSampling.

(** ** pbar.py *)
(** What the host sees: creation of the bar, an update by some amount, closing. *)
Inductive event := Define | Update of nat | Close.

(** pbar.py:15-19; [int(n / 1000)] is the integer quotient. *)
Definition print_rate (num_samples : nat) : nat := if (1000 < num_samples)%N then (num_samples %/ 1000)%N else 1%N.
Definition remainder (num_samples : nat) : nat := (num_samples %% print_rate num_samples)%N.

(** pbar.py:30-53. *)
Definition update_progress_bar (num_samples iter_num : nat) : seq event :=
  (if iter_num == 0%N then [:: Define] else [::]) ++
  (if (iter_num %% print_rate num_samples == 0)%N && (iter_num != num_samples - remainder num_samples)%N
   then [:: Update (print_rate num_samples)] else [::]) ++
  (if (iter_num == num_samples - remainder num_samples)%N then [:: Update (remainder num_samples)] else [::]).

(** pbar.py:58-64. *)
Definition close_tqdm (num_samples iter_num : nat) : seq event :=
  if (iter_num.+1 == num_samples)%N then [:: Close] else [::].

(** pbar.py:73-84: the wrapped body; its events are kept next to the output. *)
Definition wrapper_progress_bar (num_samples : nat) (C I O : Type) (func : C -> nat * I -> prog (C * O))
  (carry : C) (x : nat * I) : prog (C * (O * seq event)) :=
  do (carry', out) <- func carry x;
  Ret (carry', (out, update_progress_bar num_samples x.1 ++ close_tqdm num_samples x.1)).
