(** Specification notions for ABC, independent of the model's functions. *)
From Coq Require Import Reals List Bool Arith ZArith Sorted Permutation.
From Verif Require Import XR Keys McmcModel McmcSpec.
Import ListNotations.
Open Scope R_scope.

(** Number of elements with a property *)
Definition count {A} (P : A -> bool) (l : list A) : nat := length (filter P l).

(** [Q] is the linearly interpolated [q]-quantile of the real numbers [l]: with
    [s] the sorted list, the value at the fractional index [q (n-1)]. *)
Definition is_quantile (l : list R) (q Q : R) : Prop :=
  exists s, Permutation l s /\ StronglySorted Rle s
  /\ exists (i : nat) (w : R),
       0 <= w < 1 /\ q * (INR (length l) - 1) = INR i + w /\ (i < length l)%nat
       /\ (w > 0 -> (S i < length l)%nat)
       /\ Q = (1 - w) * nth i s 0 + w * nth (S i) s 0.

(** A list of extended reals that never increases *)
Definition nonincreasing (l : list xr) : Prop :=
  forall i, (S i < length l)%nat -> xleb (nth (S i) l NaN) (nth i l NaN) = true.
