(** Specification for C128. *)
From Coq Require Import Reals List Arith.
From Verif Require Import McmcModel.
Import ListNotations.
Open Scope R_scope.

(** how many ordered pairs of [n] points satisfy [P] *)
Definition pairs_with (n : nat) (P : nat -> nat -> bool) : nat :=
  length (filter (fun ij => P (fst ij) (snd ij)) (list_prod (seq 0 n) (seq 0 n))).

(** the distance of two points of dimension [d] *)
Definition euclid (d : nat) (x y : vec) : R := sqrt (fold_right Rplus 0 (map (fun i => (x i - y i) ^ 2) (seq 0 d))).

(** at least half of the [n * n] ordered pairs are no further apart than [m],
    and at least half no nearer *)
Definition middle (d n : nat) (vals : nat -> vec) (m : R) : Prop :=
  (n * n <= 2 * pairs_with n (fun i j => if Rle_dec (euclid d (vals i) (vals j)) m then true else false))%nat
  /\ (n * n <= 2 * pairs_with n (fun i j => if Rle_dec m (euclid d (vals i) (vals j)) then true else false))%nat.
