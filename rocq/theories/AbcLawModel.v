(** Model of a whole run of the Metropolised ABC-SMC sampler from one key: prior
    draws (mocat/src/transport/sampler.py 22-28), then startup and updates
    (mocat/src/abc/smc.py and transport/smc.py, as in AbcModel) with a threshold
    schedule and an inner sampler whose step size is not adapted
    (abc/smc.py 114-120, 221-226: the inner sampler is given by the user). *)
From Coq Require Import Reals List.
From Verif Require Import XR Keys McmcModel SmcModel SmcLawModel AbcModel.
Import ListNotations.
Open Scope R_scope.

Section A.
  Context {Data : Type}.
  Variable prior_sample : key -> vec.
  Variable prior_potential : vec -> key -> xr.
  Variable likelihood_sample : vec -> key -> Data.
  Variable distance : Data -> xr.
  Variable categorical : key -> list xr -> nat -> list nat.
  Variable inner : xr -> (nat -> R) -> key -> abc_core (Data := Data) -> abc_core (Data := Data) * xr.
  Variable l : list xr.
  Variable rthr : R.
  Variable dflt : apart (Data := Data).

  (** smc.py 221-226 *)
  Definition keep_step (_ : aensemble (Data := Data)) (s : nat -> R) : nat -> R := s.

  (** sampler.py 22-33, abc/smc.py 44-79 and 128-150; smc.py 70-74: the first
      threshold of the schedule *)
  Definition abc_smc_begin (n : nat) (k : key) (step : nat -> R) : aensemble (Data := Data) * aextra :=
    let vk := prior_values prior_sample n k in
    a_startup keep_step (next_threshold_scheduled l) prior_potential likelihood_sample distance (nth 0 l NaN) (fst vk) (snd vk) step.

  (** sample.py 135-140 with abc/smc.py 41 and 157-161: the recorded ensembles;
      with a schedule, max_iter is its length *)
  Definition abc_smc_sampled (termination_alpha : R) (n : nat) (k : key) (step : nat -> R) : list (aensemble (Data := Data)) :=
    a_run categorical inner keep_step (next_threshold_scheduled l) rthr dflt (length l) termination_alpha (abc_smc_begin n k step).
End A.
