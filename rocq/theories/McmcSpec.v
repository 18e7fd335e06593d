(** Specification notions for the MCMC group, independent of the model. *)
From Coq Require Import Reals List Arith.
From Verif Require Import XR Keys.
Import ListNotations.
Open Scope R_scope.

(** Two keys of which neither was derived from the other. *)
Definition incomparable (a b : key) : Prop := ~ derived a b /\ ~ derived b a.

(** No key of the list is (or was derived from) another one. *)
Definition antichain (l : list key) : Prop :=
  forall i j, (i < j < length l)%nat -> incomparable (nth i l (KRoot 0)) (nth j l (KRoot 0)).

(** Unnormalised density of a potential; infinite potential is density 0. *)
Definition density (u : xr) : R := match u with Fin r => exp (- r) | _ => 0 end.

(** Real value of an acceptance probability. *)
Definition xval (a : xr) : R := match a with Fin r => r | _ => 0 end.

Fixpoint sum_upto (n : nat) (f : nat -> R) : R :=
  match n with O => 0 | S n' => sum_upto n' f + f n' end.

(** Transition matrix on states 0..n-1: propose with [q], accept with [acc],
    otherwise stay. *)
Definition transition (n : nat) (q acc : nat -> nat -> R) (x y : nat) : R :=
  if Nat.eq_dec x y
  then 1 - sum_upto n (fun z => if Nat.eq_dec x z then 0 else q x z * acc x z)
  else q x y * acc x y.

(** [m] is a convex combination of the points [vs], all coordinates with the
    same weights. *)
Definition in_hull (vs : list (nat -> R)) (m : nat -> R) : Prop :=
  exists w : list R,
    length w = length vs /\ List.Forall (fun x => 0 <= x) w
    /\ fold_right Rplus 0 w = 1
    /\ forall i, m i = fold_right Rplus 0 (map (fun p => fst p * snd p i) (combine w vs)).
