(** Specification notions for the underdamped samplers. *)
From Coq Require Import Reals List Arith.
From Verif Require Import XR Keys McmcModel HmcModel.
Open Scope R_scope.

(** [s] holds the scenario's potentials and gradients at its own value (for
    some key, if the scenario is stochastic) and the total potential and
    gradient at the temperature. *)
Definition coherent (prior_pg lik_pg : vec -> key -> xr * vec) (temperature : R) (s : hstate) : Prop :=
  exists k, prior_pg (h_value s) k = (h_prior s, h_gprior s)
    /\ lik_pg (h_value s) k = (h_lik s, h_glik s)
    /\ h_pot s = xadd (h_prior s) (xmul (Fin temperature) (h_lik s))
    /\ forall i, h_gpot s i = h_gprior s i + temperature * h_glik s i.

(** the scenario is deterministic *)
Definition deterministic (pg : vec -> key -> xr * vec) : Prop := forall v k k', pg v k = pg v k'.

(** the last [m] elements of a list *)
Definition lastn {A : Type} (m : nat) (l : list A) : list A := skipn (length l - m) l.

(** the inner product of the first [d] coordinates *)
Definition inner (d : nat) (a b : vec) : R := fold_right (fun i s => a i * b i + s) 0 (seq 0 d).
