(** Specifications for runs of Stein variational gradient descent, written
    without the definitions of the model (only the type of kernels is shared). *)
From Coq Require Import Reals List Arith.
From Verif Require Import Keys McmcModel KernelModel.
Import ListNotations.
Open Scope R_scope.

(** The average of [f] over a batch of indices *)
Definition batch_average (l : list nat) (f : nat -> R) : R := fold_right Rplus 0 (map f l) / INR (length l).
(** The direction in which particle [i] is moved *)
Definition stein_direction (K : kernel) (x g : nat -> vec) (l : list nat) (i c : nat) : R :=
  batch_average l (fun j => k_grad_x K (x j) (x i) c - k_call K (x j) (x i) * g j c).

(** Keys used for the particles and for the batches, all different *)
Definition fresh_keys (n : nat) (pk : nat -> nat -> key) (bk : nat -> key) : Prop :=
  (forall j i j' i', (i < n)%nat -> (i' < n)%nat -> pk j i = pk j' i' -> j = j' /\ i = i')
  /\ (forall j j', bk j = bk j' -> j = j')
  /\ (forall j i j', (i < n)%nat -> pk j i <> bk j').

(** AdaGrad with momentum for one number: the root of the sum of the squares of
    the gradients so far, and the exponential average of the scaled gradients *)
Fixpoint sq_sum (t : nat) (g : nat -> R) : R := match t with 0 => 0 | S t' => sq_sum t' g + g t' ^ 2 end.
Definition scaled (g : nat -> R) (t : nat) : R := g t / sqrt (sq_sum (S t) g).
Fixpoint momentum (mom : R) (g : nat -> R) (t : nat) : R :=
  match t with 0 => 0 | S t' => (1 - mom) * scaled g t' + mom * momentum mom g t' end.
Fixpoint position (step : nat -> R) (mom x0 : R) (g : nat -> R) (t : nat) : R :=
  match t with 0 => x0 | S t' => position step mom x0 g t' - step (S t') * momentum mom g (S t') end.

Definition distance (d : nat) (x y : vec) : R := sqrt (fold_right Rplus 0 (map (fun c => (x c - y c) ^ 2) (seq 0 d))).
Definition total (n : nat) (f : nat -> R) : R := fold_right Rplus 0 (map f (seq 0 n)).
