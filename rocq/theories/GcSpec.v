(** Distances on a cycle and quadratic forms, independent of the model. *)
From Coq Require Import Reals ZArith.
From Verif Require Import SsmSpec.
Open Scope R_scope.

(** [c] is the smallest number of steps between [i] and [j] on a cycle. *)
Definition cyclic_distance (dim i j c : Z) : Prop :=
  (exists k, c = Z.abs (j - i + k * dim))%Z /\ forall k, (c <= Z.abs (j - i + k * dim))%Z.

(** The quadratic form of a matrix. *)
Definition quad (d : nat) (M : Z -> Z -> R) (a : nat -> R) : R :=
  sumn d (fun i => sumn d (fun j => a i * M (Z.of_nat i) (Z.of_nat j) * a j)).
