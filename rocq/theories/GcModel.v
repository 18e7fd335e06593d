(** The Gaspari-Cohn taper, mocat/src/utils.py 442-473. *)
From Coq Require Import Reals ZArith Bool.
From Verif Require Import XR.
Open Scope R_scope.

(** utils.py 442-447 *)
Definition gc_close (u : R) : R := - (1 / 4) * u ^ 5 + 1 / 2 * u ^ 4 + 5 / 8 * u ^ 3 - 5 / 3 * u ^ 2 + 1.

(** utils.py 450-457.  At [u = 0] the code's value is infinite; it is never
    selected there (458-465), the model's value is irrelevant. *)
Definition gc_mid (u : R) : R :=
  1 / 12 * u ^ 5 - 1 / 2 * u ^ 4 + 5 / 8 * u ^ 3 + 5 / 3 * u ^ 2 - 5 * u + 4 - 2 / 3 / u.

(** utils.py 460-465: the two [jnp.where] in order; the distance itself, not its
    absolute value, is compared with the radius.  With a zero radius the code's
    quotient is NaN or infinite but is not selected for [z >= 0]. *)
Definition gc (z radius : R) : R :=
  let u := Rabs z / radius in
  let out := 0 in
  let out := if Rltb z radius then gc_close u else out in
  if andb (Rleb radius z) (Rltb z (2 * radius)) then gc_mid u else out.

(** utils.py 468-473: row [i], column [j]; integer distances. *)
Definition gc_distance (dim i j : Z) : Z :=
  Z.min (Z.min (Z.abs (j - i)) (Z.abs (j + dim - i))) (Z.abs (j - dim - i)).

Definition gc_matrix (dim : Z) (radius : R) (i j : Z) : R := gc (IZR (gc_distance dim i j)) radius.
