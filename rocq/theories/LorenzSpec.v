(** Rotations, trajectories and divergences. *)
From Coq Require Import Reals Arith.
From Coquelicot Require Import Coquelicot.
From Verif Require Import McmcModel SsmSpec.
Open Scope R_scope.

(** Rotation by [s] places. *)
Definition rotate (d s : nat) (x : vec) : vec := fun i => x ((i + s) mod d)%nat.

(** A solution of the differential equation from time 0 on. *)
Definition trajectory (d : nat) (f : vec -> vec) (x : R -> vec) : Prop :=
  forall t, 0 <= t -> forall i, (i < d)%nat -> is_derive (fun s => x s i) t (f (x t) i).

Definition sqnorm (d : nat) (x : vec) : R := sumn d (fun i => x i * x i).

(** Replacing one coordinate. *)
Definition set_coord (x : vec) (i : nat) (v : R) : vec := fun j => if Nat.eqb j i then v else x j.

(** The trace of the Jacobian. *)
Definition is_divergence (d : nat) (f : vec -> vec) (x : vec) (l : R) : Prop :=
  exists g, (forall i, (i < d)%nat -> is_derive (fun v => f (set_coord x i v) i) (x i) (g i)) /\ l = sumn d g.
