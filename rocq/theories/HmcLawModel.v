(** Model of how runs of Underdamped begin: mocat/src/mcmc/sampler.py 38-46 and
    mocat/src/mcmc/standard_mcmc.py 86-105. *)
From Coq Require Import Reals List.
From Verif Require Import XR Keys McmcModel HmcModel ChainModel.
Open Scope R_scope.

(** sampler.py 38-46, standard_mcmc.py 86-105: only a given state can come with
    momenta; otherwise they are zero (103-104). *)
Definition ud_begin (prior_sample : key -> vec) (prior_pg lik_pg : vec -> key -> xr * vec) (temperature : R)
  (s : start) (m : option vec) (k : key) (p : hpar) : mstate hstate * mextra hpar :=
  let vk := initial_value prior_sample s k in
  let m0 := match s, m with Given _, Some m => m | _, _ => fun _ => 0 end in
  ud_startup prior_pg lik_pg temperature (fst vk) m0 (snd vk) p.
