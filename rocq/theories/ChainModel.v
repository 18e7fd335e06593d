(** Model of how runs of random-walk samplers begin: mocat/src/mcmc/sampler.py
    38-46 and mocat/src/abc/abc.py 43-63. *)
From Coq Require Import Reals List.
From Verif Require Import XR Keys McmcModel.
Open Scope R_scope.

(** sampler.py 38-44: the initial point and the key left; a given point, a draw
    from the prior, or zeros. *)
Inductive start : Type := Given (v : vec) | Prior | Zeros.
Definition initial_value (prior_sample : key -> vec) (s : start) (k : key) : vec * key :=
  match s with
  | Given v => (v, k)
  | Prior => (prior_sample (KSplit k 2 1), KSplit k 2 0)
  | Zeros => (fun _ => 0, k)
  end.

Definition rw_begin (prior_sample : key -> vec) (potential : vec -> key -> xr) (s : start) (k : key) (stepsize : R)
  : mstate rw_core * mextra R :=
  let vk := initial_value prior_sample s k in rw_startup potential (fst vk) (snd vk) stepsize.

(** abc.py 43-63, with a prior potential; [alpha] is 1 (metropolis.py 40-46). *)
Definition abc_begin {Data : Type} (prior_sample : key -> vec) (prior_potential : vec -> key -> xr)
  (likelihood_sample : vec -> key -> Data) (distance : Data -> xr) (s : start) (k : key) (p : abc_par)
  : mstate abc_core * mextra abc_par :=
  let vk := initial_value prior_sample s k in
  let v := fst vk in
  let k1 := snd vk in
  let k2 := KSplit k1 2 0 in
  let dat := likelihood_sample v (KSplit k2 2 1) in
  (MState (ABC v (prior_potential v (KSplit k1 2 1)) dat (distance dat)) (Fin 1),
   MExtra 0 (KSplit k2 2 0) p).
