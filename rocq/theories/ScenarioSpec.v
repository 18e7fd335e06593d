(** Specification: gradients of functions of finitely many coordinates. *)
From Coq Require Import Reals List.
From Coquelicot Require Import Coquelicot.
Open Scope R_scope.

Fixpoint dotn (n : nat) (g h : nat -> R) : R :=
  match n with O => 0 | S n' => dotn n' g h + g n' * h n' end.

(** [g] is the gradient of [f] at [x]: every directional derivative is the
    inner product with [g]. *)
Definition is_grad (n : nat) (f : (nat -> R) -> R) (x g : nat -> R) : Prop :=
  forall h, is_derive (fun t => f (fun i => x i + t * h i)) 0 (dotn n g h).

(** [f] has a gradient at [x]. *)
Definition differentiable (n : nat) (f : (nat -> R) -> R) (x : nat -> R) : Prop :=
  exists g, is_grad n f x g.
