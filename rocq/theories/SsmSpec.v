(** Specification: sums of potentials along a trajectory, and their derivatives. *)
From Coq Require Import Reals List.
From Coquelicot Require Import Coquelicot.
From Verif Require Import ScenarioSpec.
Open Scope R_scope.

(** [f 0 + ... + f (n-1)] *)
Fixpoint sumn (n : nat) (f : nat -> R) : R :=
  match n with O => 0 | S n' => sumn n' f + f n' end.

Section S.
  Context {Y Tm : Type}.
  Notation vec := (nat -> R).
  Variable ip : vec -> Tm -> R.
  Variable tp : vec -> Tm -> vec -> Tm -> R.
  Variable lp : vec -> Y -> Tm -> R.

  (** minus the log of the joint density of [n] states and observations *)
  Definition path_potential (n : nat) (x : nat -> vec) (y : nat -> Y) (t : nat -> Tm) : R :=
    ip (x 0%nat) (t 0%nat)
    + sumn (n - 1) (fun i => tp (x i) (t i) (x (S i)) (t (S i)))
    + sumn n (fun i => lp (x i) (y i) (t i)).

  (** [g] is the gradient of [F], a function of the first [n] states: the
      derivative in every direction is the inner product with [g] *)
  Definition is_path_grad (d n : nat) (F : (nat -> vec) -> R) (x g : nat -> vec) : Prop :=
    forall h, is_derive (fun s => F (fun i j => x i j + s * h i j)) 0 (sumn n (fun i => dotn d (g i) (h i))).

  (** [g0, g1] is the gradient of a function of two states *)
  Definition is_grad2 (d : nat) (f : vec -> vec -> R) (x0 x1 g0 g1 : vec) : Prop :=
    forall h0 h1, is_derive (fun s => f (fun i => x0 i + s * h0 i) (fun i => x1 i + s * h1 i)) 0
                            (dotn d g0 h0 + dotn d g1 h1).
End S.
