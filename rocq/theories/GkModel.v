(** mocat/src/abc/scenarios/gk.py: the g-and-k scenarios.  [ppf] and [cdf] are
    those of the standard normal, given functions here; prior limits are one
    number per coordinate. *)
From Coq Require Import Reals List Bool.
From Verif Require Import XR McmcModel.
Import ListNotations.
Open Scope R_scope.

Section Gk.
Variables ppf cdf : R -> R.
(** gk.py 22 *)
Variable c : R.
(** gk.py 24-25 *)
Variables mins maxs : vec.

(** gk.py 50-54: one observation; [jnp.power] of a base of at least one *)
Definition gk_transform (x : vec) (u : R) : R :=
  let z := ppf u in
  let expmingz := exp (- x 2%nat * z) in
  x 0%nat + x 1%nat * (1 + c * (1 - expmingz) / (1 + expmingz)) * z * Rpower (1 + z ^ 2) (x 3%nat).

(** gk.py 46-54, from the uniforms drawn on line 49 *)
Definition gk_full_data_sample (us : list R) (x : vec) : list R := map (gk_transform x) us.

(** gk.py 70-72 and 74-76, also 137-143 *)
Definition gk_constrain (x : vec) : vec := fun i => mins i + cdf (x i) * (maxs i - mins i).
Definition gk_unconstrain (x : vec) : vec := fun i => ppf ((x i - mins i) / (maxs i - mins i)).

(** gk.py 78-87 *)
Definition gk_transformed_full_data_sample (us : list R) (x : vec) : list R :=
  map (gk_transform (gk_constrain x)) us.

(** gk.py 107-115: only the location is unknown; [k] is an attribute (105) *)
Definition gk_only_a_transform (B g k : R) (x : vec) (u : R) : R :=
  let z := ppf u in
  let expmingz := exp (- g * z) in
  x 0%nat + B * (1 + c * (1 - expmingz) / (1 + expmingz)) * z * Rpower (1 + z ^ 2) c.
Definition gk_only_a_full_data_sample (B g k : R) (us : list R) (x : vec) : list R := map (gk_only_a_transform B g k x) us.
(** gk.py 145-154 *)
Definition gk_only_a_transformed_full_data_sample (B g k : R) (us : list R) (x : vec) : list R :=
  map (gk_only_a_transform B g k (gk_constrain x)) us.
End Gk.

(** gk.py 56-61 and 117-122, for [d] coordinates *)
Definition all_coords (d : nat) (p : nat -> bool) : bool := forallb p (seq 0 d).
Definition gk_prior_potential (mins maxs : vec) (d : nat) (x : vec) : xr :=
  let out := if all_coords d (fun i => Rltb (mins i) (x i)) then Fin 1 else PInf in
  if all_coords d (fun i => Rltb (x i) (maxs i)) then out else PInf.

(** gk.py 63-65 and 124-126 from the uniforms drawn *)
Definition gk_prior_sample (mins maxs : vec) (u : vec) : vec := fun i => mins i + u i * (maxs i - mins i).

(** gk.py 89-92 and 156-159 *)
Definition gk_transformed_prior_potential (d : nat) (x : vec) : R :=
  1 / 2 * fold_right Rplus 0 (map (fun i => x i ^ 2) (seq 0 d)).
