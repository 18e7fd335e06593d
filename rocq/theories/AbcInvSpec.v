(** Specification for C103: Markov chains on finitely many states and the ABC
    posterior.  Independent of the model. *)
From Coq Require Import Reals List Arith.
From Verif Require Import XR McmcSpec.
Open Scope R_scope.

(** The law of the chain on states 0..n-1 after [k] steps from [w]. *)
Fixpoint push (n : nat) (P : nat -> nat -> R) (k : nat) (w : nat -> R) : nat -> R :=
  match k with
  | O => w
  | S k' => fun y => sum_upto n (fun x => push n P k' w x * P x y)
  end.

(** [m] parameter values with prior potentials [pr], [d] data sets with
    likelihood [lik i j] of data [j] under parameter [i], [inside j]: data [j]
    is in the ball round the observation. *)
(** unnormalised joint law of parameter and simulated data *)
Definition abc_joint (pr : nat -> xr) (lik : nat -> nat -> R) (inside : nat -> bool) (i j : nat) : R :=
  density (pr i) * lik i j * (if inside j then 1 else 0).

(** unnormalised ABC posterior of the parameter: prior times the probability
    that simulated data fall into the ball *)
Definition abc_posterior (d : nat) (pr : nat -> xr) (lik : nat -> nat -> R) (inside : nat -> bool) (i : nat) : R :=
  density (pr i) * sum_upto d (fun j => if inside j then lik i j else 0).
