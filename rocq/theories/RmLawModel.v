(** Model of how runs of RandomWalk with RMMetropolis begin:
    mocat/src/mcmc/metropolis.py 91-115. *)
From Coq Require Import Reals.
From Verif Require Import XR Keys McmcModel ChainModel.
Open Scope R_scope.

(** 100-103: the stepsize given to the sampler, or 2.38 ** 2 / scenario.dim *)
Definition rm_first_stepsize (given : option R) (dim : nat) : R :=
  match given with Some h => h | None => 2.38 ^ 2 / INR dim end.

(** 91-115 after standard_mcmc.py 31-41: the stepsize is recorded in the state *)
Definition rm_begin (prior_sample : key -> vec) (potential : vec -> key -> xr) (given : option R) (dim : nat) (s : start) (k : key)
  : mstate rw_core * mextra R :=
  rw_begin prior_sample potential s k (rm_first_stepsize given dim).
