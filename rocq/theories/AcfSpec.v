(** Specification: the sample autocorrelation of a series. *)
From Coq Require Import Reals List Arith.
Import ListNotations.
Open Scope R_scope.

Definition sum_of (n : nat) (f : nat -> R) : R := fold_right Rplus 0 (map f (seq 0 n)).
Definition average (x : list R) : R := fold_right Rplus 0 x / INR (length x).
Definition dev (x : list R) (i : nat) : R := nth i x 0 - average x.

(** the sum over the pairs of entries at distance [k] *)
Definition lag_sum (x : list R) (k : nat) : R := sum_of (length x - k) (fun i => dev x i * dev x (i + k)).

(** sample autocorrelation, and the integrated autocorrelation time up to lag [M] *)
Definition rho (x : list R) (k : nat) : R := lag_sum x k / lag_sum x 0.
Definition tau (x : list R) (M : nat) : R := 1 + 2 * sum_of M (fun j => rho x (S j)).

(** the first lag larger than five times the time up to it *)
Definition sokal_window (x : list R) (M : nat) : Prop :=
  (1 <= M)%nat /\ 5 * tau x M < INR M /\ forall m, (1 <= m < M)%nat -> INR m <= 5 * tau x m.
