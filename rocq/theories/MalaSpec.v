(** Specification of the Metropolis-adjusted Langevin algorithm: one Euler step
    of the overdamped Langevin diffusion as proposal, accepted with the
    Metropolis-Hastings probability of its Gaussian density.  No momenta. *)
From Coq Require Import Reals List Arith.
From Verif Require Import XR McmcModel McmcSpec WeightsSpec UnbSpec ChainSpec.
Import ListNotations.
Open Scope R_scope.

Section Mala.
  Variable d : nat.
  Variable pot : vec -> xr.
  Variable grad : vec -> vec.
  (** the time step of the diffusion is [h * h] *)
  Variable h : R.

  Definition euler (x xi : vec) : vec := fun i => x i - h * h / 2 * grad x i + h * xi i.

  (** minus the log density, up to a constant, of proposing [y] at [x]: normal
      with the mean of the step and variance [h * h] *)
  Definition euler_potential (x y : vec) : R :=
    fold_right (fun i s => (y i - (x i - h * h / 2 * grad x i)) * (y i - (x i - h * h / 2 * grad x i)) + s) 0 (seq 0 d) / (2 * (h * h)).

  (** Metropolis-Hastings acceptance probability *)
  Definition mh (x y : vec) : R :=
    accept (xadd (pot x) (Fin (euler_potential x y))) (xadd (pot y) (Fin (euler_potential y x))).

  Definition mala_kernel {W} (P : law W) (nrm : W -> nat -> R) (x : vec) (phi : vec -> R) : R :=
    mean P (fun u => let y := euler x (nrm u) in mh x y * phi y + (1 - mh x y) * phi x).

  Inductive mala_reach {W} (nrm : W -> nat -> R) (first : vec -> Prop) : nat -> vec -> Prop :=
  | mala_first x : first x -> mala_reach nrm first 0 x
  | mala_kept t x : mala_reach nrm first t x -> mala_reach nrm first (S t) x
  | mala_moved t x u : mala_reach nrm first t x -> mala_reach nrm first (S t) (euler x (nrm u)).

  (** the uniform numbers decide the acceptances of the first [n] steps with the
      right probabilities *)
  Definition mala_uniform {W} (P : law W) (unif : W -> R) (nrm : W -> nat -> R) (first : vec -> Prop) (n : nat) : Prop :=
    forall t x u, mala_reach nrm first t x -> (t < n)%nat -> uniform_ok P unif (mh x (euler x (nrm u))).

  (** among the points [S], the proposals have the density that the acceptance
      probability supposes *)
  Definition euler_density {W} (P : law W) (nrm : W -> nat -> R) (S : list vec) : Prop :=
    exists C, forall x f, In x S -> (forall y, ~ In y S -> f y = 0) ->
    mean P (fun u => f (euler x (nrm u))) = C * Rsum (map (fun y => exp (- euler_potential x y) * f y) S).
End Mala.
