(** Specification for C127. *)
From Coq Require Import Reals List.
From Verif Require Import XR McmcModel SmcModel AbcModel WeightsSpec.
Import ListNotations.
Open Scope R_scope.

Definition rsum (l : list R) : R := fold_right Rplus 0 l.

(** the sample variance of [n] numbers as half the mean squared difference of
    two different ones *)
Definition pair_variance (l : list R) : R :=
  rsum (map (fun x => rsum (map (fun y => (x - y) ^ 2) l)) l) / (2 * INR (length l) * INR (length l - 1)).

(** coordinate [i] of the particles, and of those that have weight *)
Definition coordinate {Data : Type} (i : nat) (E : aensemble (Data := Data)) : list R :=
  map (fun p => a_value (q_core p) i) E.
Definition weighted_coordinate {Data : Type} (i : nat) (E : aensemble (Data := Data)) : list R :=
  coordinate i (filter (fun p => xltb NInf (q_lw p)) E).

(** the change of units [v |-> a v + b], coordinate by coordinate *)
Definition units (a b : nat -> R) (v : vec) : vec := fun i => a i * v i + b i.
Definition core_units {Data : Type} (a b : nat -> R) (c : abc_core (Data := Data)) : abc_core :=
  ABC (units a b (a_value c)) (a_prior c) (a_data c) (a_dist c).
Definition part_units {Data : Type} (a b : nat -> R) (p : apart (Data := Data)) : apart :=
  APart (core_units a b (q_core p)) (q_alpha p) (q_thr p) (q_lw p) (q_ess p).
