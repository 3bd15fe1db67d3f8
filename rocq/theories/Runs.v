(** * Runs: model of what stochastic_volatility/experiment.py:124-184 does with the kernels of
    stochastic_volatility/kernels.py: the arguments that [one_experiment] passes to the loops. *)
From Coq Require Import Reals.
From mathcomp Require Import all_ssreflect all_algebra.
From Verif Require Import RInst Prog Csmc Drivers Experiments ErgodicSpec.

Set Implicit Arguments.
Unset Strict Implicit.
Unset Printing Implicit Defensive.
Import GRing.Theory Num.Theory Order.TTheory.
Local Open Scope ring_scope.

(** stochastic_volatility/kernels.py:130, 176, 224, 262: [init = lambda x: (x, jnp.zeros((x.shape[0],), dtype=int))]. *)
Definition path_init (X : Type) (n' T : nat) (xs : seq X) : seq X * ('I_T -> 'I_n'.+1) := (xs, fun=> ord0).

(** Kernels on trajectories with indices (csmc, rw_csmc, l_csmc_f, al_csmc_f, tp_csmc, atp_csmc_f, t_atp_csmc_f):
    - [start]: the initial trajectory, experiment.py:141-147 (an unconditional cSMC pass);
    - [kern data delta]: the kernel for the data and the step sizes of the T = m.+1 times ([delta_kernel], line 162);
    - the adaptation loop, lines 148-156 ([stat]: the identity for mcmc_utils.py, a summary over times for
      t_atp_csmc_f.py), from [delta_init] for [adaptation] steps;
    - [burnin] steps of burn-in with [all_samples = False] (lines 170-174): the last trajectory goes through [init]
      (line 179);
    - [n_samples] steps with [all_samples = True] (lines 182-183).
    A chain returns the data and the adapted step sizes of its repetition, its samples and its indicators of change
    (line 206 returns the adapted step sizes, line 193 evaluates [log_pdf(samples, ys, ...)], lines 185-192 average
    the indicators). *)
Section Particles.
Variables (D X : Type) (n' m : nat).
Variables (get_data : key -> prog D) (start : key -> D -> prog (seq X)).
Variable kern : D -> ('I_m.+1 -> R) -> key -> X -> seq X -> 'I_n'.+1 -> seq 'I_n'.+1 -> prog (seq X * seq 'I_n'.+1).
Variables (stat : ('I_m.+1 -> option R) -> 'I_m.+1 -> option R) (cfg : config) (delta_init : R) (adaptation : nat).

Definition sv_particle_run (burnin n_samples : nat) (key : key) (K M : nat)
  : prog (unit * seq (seq (D * ('I_m.+1 -> R) * (seq (seq X) * seq ('I_m.+1 -> bool))))) :=
  sv_experiment get_data
    (fun key data => do xs <- start key data; Ret (path_init n' m.+1 xs))
    (fun data key state => adapt_routine (fun k s delta => indexed (kern data delta) k s) id (@changed (seq X) _ m.+1)
       stat cfg key state (fun=> delta_init) adaptation)
    (fun data delta key state =>
       do out <- mcmc_sampling (indexed (kern data delta)) key state burnin 0;
       Ret (path_init n' m.+1 (if out is inr final then final.1 else [::])))
    (fun data delta key state =>
       do out <- mcmc_sampling (indexed (kern data delta)) key state n_samples 1;
       Ret (data, delta, if out is inl r then r else ([::], [::])))
    key K M.
End Particles.

(** Kernels on single states (mala, tp): the loops of tp.py, one step size; [cached data x]: the quantities stored
    beside the position by [init] (kernels.py:66-67, 91-92). *)
Section Positions.
Variables (D X C : Type) (get_data : key -> prog D) (start : key -> D -> prog X) (cached : D -> X -> C).
Variable kern : D -> R -> key -> X * C -> prog (X * C * bool).
Variables (cfg : config) (delta_init : R) (adaptation : nat).

Definition sv_single_run (burnin n_samples : nat) (key : key) (K M : nat)
  : prog (unit * seq (seq (D * R * (seq X * seq bool)))) :=
  sv_experiment get_data
    (fun key data => do x <- start key data; Ret (x, cached data x))
    (fun data key state => tp_adaptation (fun k s delta => kern data delta k s) cfg key state delta_init adaptation)
    (fun data delta key state =>
       do out <- tp_sampling (kern data delta) key state burnin 0;
       let x := if out is inr r then r.1 else state.1 in Ret (x, cached data x))
    (fun data delta key state =>
       do out <- tp_sampling (kern data delta) key state n_samples 1;
       Ret (data, delta, if out is inl r then r else ([::], [::])))
    key K M.
End Positions.

(** experiment.py:203-204: [jnp.mean(samples, 0)] and [jnp.std(samples, 0)] for one chain, of one coordinate [f] of the
    samples.  [jnp.std] takes the mean first and then the mean of the squared deviations from it, divided by the
    number of samples (ddof = 0). *)
Definition np_mean (Z : Type) (f : Z -> R) (l : seq Z) : R := (\sum_(z <- l) f z) / (size l)%:R.
Definition np_std (Z : Type) (f : Z -> R) (l : seq Z) : R :=
  let m := np_mean f l in sqrt (np_mean (fun z => `|f z - m| ^+ 2) l).
