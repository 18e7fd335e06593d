(** Specification of what makes Hamiltonian moves keep the weights of finitely
    many points: with momenta drawn by [nrm], the points weighted by exp(-pot)
    have the density exp(-energy) with respect to a measure that the
    trajectories keep. *)
From Coq Require Import Reals List.
From Verif Require Import XR McmcModel McmcSpec WeightsSpec UnbSpec ChainSpec HmcLawSpec.
Import ListNotations.
Open Scope R_scope.

Definition canonical {W} (d : nat) (pot : vec -> xr) (grad : vec -> vec) (eps : R) (L : nat) (P : law W) (nrm : W -> nat -> R)
  (supp : list vec) : Prop :=
  exists mu : law phase,
    (forall f : phase -> R, mean mu (fun z => f (trajectory grad eps L z)) = mean mu f)
    /\ forall f : phase -> R,
         Rsum (map (fun x => density (pot x) * mean P (fun u => f (x, nrm u))) supp) = mean mu (fun z => boltzmann d pot z * f z).
