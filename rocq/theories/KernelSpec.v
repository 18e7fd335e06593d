(** Specification: derivatives of functions of two vectors, and the Stein kernel. *)
From Coq Require Import Reals Arith.
From Coquelicot Require Import Coquelicot.
From Verif Require Import ScenarioSpec SsmSpec.
Open Scope R_scope.

Notation vec := (nat -> R).

(** the point reached from [x] after [s] in direction [h] *)
Definition move (x h : vec) (s : R) : vec := fun i => x i + s * h i.
(** the [i]-th coordinate direction *)
Definition axis (i : nat) : vec := fun j => if Nat.eqb j i then 1 else 0.

(** [v] is the derivative of [k] in the [i]-th coordinates of both arguments *)
Definition is_mixed (k : vec -> vec -> R) (x y : vec) (i : nat) (v : R) : Prop :=
  exists g : R -> R,
    (forall t, is_derive (fun s => k (move x (axis i) s) (move y (axis i) t)) 0 (g t))
    /\ is_derive g 0 v.

(** The Langevin Stein kernel of the density exp(-U), for a kernel with value
    [k], gradients [gx], [gy] and mixed derivatives [m] at [(x, y)], when the
    gradient of [U] is [ux] at [x] and [uy] at [y]:
    the operator [f |-> f' - f U'] applied to each argument, summed over
    coordinates. *)
Definition stein (d : nat) (k : R) (gx gy m ux uy : vec) : R :=
  sumn d (fun i => m i - gx i * uy i - ux i * gy i + k * ux i * uy i).
