(** Model of a whole run of the tempered SMC sampler from one key: prior draws
    (mocat/src/transport/sampler.py 22-28), then startup and updates
    (mocat/src/transport/smc.py, as in SmcModel) with RandomWalk and Metropolis
    as inner sampler. *)
From Coq Require Import Reals List.
From Verif Require Import XR Keys McmcModel SmcModel.
Import ListNotations.
Open Scope R_scope.

(** sampler.py 22-28, with [prior_sample] implemented (smc.py 135 requires it):
    the values and the key left for the rest of the startup *)
Definition prior_values (prior_sample : key -> vec) (n : nat) (k : key) : list vec * key :=
  (map (fun i => prior_sample (KSplit (KSplit k 2 1) n i)) (seq 0 n), KSplit k 2 0).

(** sampler.py 22-33, smc.py 128-164 and 267-296 *)
Definition smc_begin (prior_sample : key -> vec) (prior lik : vec -> key -> xr) (gprior glik : vec -> key -> vec)
  (next : ensemble -> nat -> R) (n : nat) (k : key) (step : R) : ensemble * sextra :=
  let vk := prior_values prior_sample n k in
  smc_startup prior lik gprior glik next (fst vk) (snd vk) step.

(** sample.py 135-140 with smc.py 171-175: the recorded ensembles of a run with
    the temperature schedule [l] *)
Definition smc_sampled (prior_sample : key -> vec) (prior lik : vec -> key -> xr) (gprior glik : vec -> key -> vec)
  (categorical : key -> list xr -> nat -> list nat) (normal : key -> nat -> R) (uniform : key -> R)
  (steps : nat) (l : list R) (thr : R) (n : nat) (k : key) (step : R) : list ensemble :=
  smc_run prior categorical (rw_inner normal uniform prior lik steps) (scheduled l) thr (length l) (last l 0)
    (smc_begin prior_sample prior lik gprior glik (scheduled l) n k step).
