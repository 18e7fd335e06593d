(** Specification of the Hamiltonian Monte Carlo kernel with partial momentum
    refreshment, for a potential and its gradient.  Points of phase space are
    pairs of a position and momenta with [d] coordinates. *)
From Coq Require Import Reals List Arith.
From Verif Require Import XR McmcModel McmcSpec WeightsSpec UnbSpec ChainSpec.
Import ListNotations.
Open Scope R_scope.

Definition phase : Type := vec * vec.

(** prior and likelihood potentials with their gradients, at a temperature *)
Definition tempered_pot (prior lik : vec -> xr * vec) (T : R) (v : vec) : xr := xadd (fst (prior v)) (xmul (Fin T) (fst (lik v))).
Definition tempered_grad (prior lik : vec -> xr * vec) (T : R) (v : vec) : vec := fun i => snd (prior v) i + T * snd (lik v) i.

Section Hmc.
  Variable d : nat.
  Variable pot : vec -> xr.
  Variable grad : vec -> vec.
  Variable eps : R.

  (** the Stoermer-Verlet scheme *)
  Definition vkick (z : phase) : phase := (fst z, fun i => snd z i - eps / 2 * grad (fst z) i).
  Definition vdrift (z : phase) : phase := (fun i => fst z i + eps * snd z i, snd z).
  Definition verlet (z : phase) : phase := vkick (vdrift (vkick z)).

  (** [L] steps, then the momenta reversed *)
  Definition trajectory (L : nat) (z : phase) : phase :=
    let y := Nat.iter L verlet z in (fst y, fun i => - snd y i).

  (** total energy, up to a constant, and unnormalised density *)
  Definition energy (z : phase) : xr :=
    xadd (pot (fst z)) (Fin (fold_right (fun i s => snd z i * snd z i + s) 0 (seq 0 d) / 2)).
  Definition boltzmann (z : phase) : R := density (energy z).

  (** momenta reversed, damped by [c] and refreshed *)
  Definition refreshed (c : R) (z : phase) (xi : vec) : phase :=
    (fst z, fun i => sqrt (1 - c * c) * xi i - c * snd z i).

  Definition hmc_kernel {W} (P : law W) (nrm : W -> nat -> R) (L : nat) (c : R) (z : phase) (phi : phase -> R) : R :=
    mean P (fun u =>
      let y := refreshed c z (nrm u) in
      let y' := trajectory L y in
      let a := accept (energy y) (energy y') in
      a * phi y' + (1 - a) * phi y).

  (** points that [t] steps can lead to from a starting point *)
  Inductive hmc_reach {W} (nrm : W -> nat -> R) (L : nat) (c : R) (start : phase -> Prop) : nat -> phase -> Prop :=
  | reach_start z : start z -> hmc_reach nrm L c start 0 z
  | reach_stay t z u : hmc_reach nrm L c start t z -> hmc_reach nrm L c start (S t) (refreshed c z (nrm u))
  | reach_move t z u : hmc_reach nrm L c start t z -> hmc_reach nrm L c start (S t) (trajectory L (refreshed c z (nrm u))).

  (** the uniform numbers decide the acceptances of the first [n] steps with the
      right probabilities *)
  Definition hmc_uniform {W} (P : law W) (unif : W -> R) (nrm : W -> nat -> R) (L : nat) (c : R) (start : phase -> Prop)
    (n : nat) : Prop :=
    forall t z u, hmc_reach nrm L c start t z -> (t < n)%nat ->
    let y := refreshed c z (nrm u) in uniform_ok P unif (accept (energy y) (energy (trajectory L y))).
End Hmc.
