(** Specification of the self-normalised estimate made from weighted samples. *)
From Coq Require Import Reals List.
From Verif Require Import XR WeightsSpec McmcSpec UnbSpec McmcModel AbcModel.
Import ListNotations.
Open Scope R_scope.

(** weighted average of [phi] divided by the sum of the weights (0 when no
    sample has weight) *)
Definition normalised_average {Data : Type} (phi : vec -> R) (l : list (isample (Data := Data))) : R :=
  Rsum (map (fun s => weight (i_lw s) * phi (a_value (i_core s))) l) / Rsum (map (fun s => weight (i_lw s)) l).

(** mean squared deviation from [p] of importance weight times [phi] for a
    parameter from [r] and data simulated given it; [ratio] is the density of the
    prior over that of the proposal *)
Definition spread {Data : Type} (supp : list vec) (lk : vec -> law Data) (distance : Data -> xr) (ratio : vec -> R) (thr : xr)
  (phi : vec -> R) (p : R) (r : vec -> R) : R :=
  Rsum (map (fun x => r x * mean (lk x) (fun d => ((if xltb (distance d) thr then ratio x else 0) * phi x - p) ^ 2)) supp).
