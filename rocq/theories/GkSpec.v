(** The g-and-k family, independent of the model. *)
From Coq Require Import Reals List.
From Verif Require Import McmcModel.
Open Scope R_scope.

(** The quantile at normal score [z]. *)
Definition gk_quantile (c A B g k z : R) : R :=
  A + B * (1 + c * tanh (g * z / 2)) * Rpower (1 + z ^ 2) k * z.

Definition in_box (mins maxs : vec) (d : nat) (x : vec) : Prop := forall i, (i < d)%nat -> mins i < x i < maxs i.

Definition normal_density (x : R) : R := exp (- (x ^ 2 / 2)) / sqrt (2 * PI).
