(** Specifications for the toy scenarios. *)
From Coq Require Import Reals.
Open Scope R_scope.

(** Density of the normal law with mean [m] and variance [v] *)
Definition normal_density (m v x : R) : R := exp (- (x - m) ^ 2 / (2 * v)) / sqrt (2 * PI * v).
