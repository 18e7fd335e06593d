(** Specification of importance-sampling ABC: what weighted samples estimate. *)
From Coq Require Import Reals List.
From Verif Require Import XR WeightsSpec McmcSpec UnbSpec McmcModel AbcModel.
Import ListNotations.
Open Scope R_scope.

Section Spec.
  Context {Data : Type}.
  Variable supp : list vec.
  Variable ip : vec -> R.                  (* prior potential *)
  Variable lk : vec -> law Data.           (* law of the simulated data *)
  Variable distance : Data -> xr.

  (** parameter with density [q], data given the parameter *)
  Definition simulation (q : vec -> R) : law (abc_core (Data := Data)) :=
    flat_map (fun x => map (fun dp => (ABC x (Fin (ip x)) (fst dp) (distance (fst dp)), q x * snd dp)) (lk x)) supp.

  (** probability of data within the threshold *)
  Definition within (thr : xr) (x : vec) : R := mean (lk x) (fun d => if xltb (distance d) thr then 1 else 0).
  (** unnormalised expectation under the ABC posterior *)
  Definition abc_posterior (thr : xr) (phi : vec -> R) : R :=
    Rsum (map (fun x => exp (- ip x) * within thr x * phi x) supp).
End Spec.

(** average of [phi] times weight over the samples *)
Definition weighted_average {Data : Type} (phi : vec -> R) (l : list (isample (Data := Data))) : R :=
  Rsum (map (fun s => weight (i_lw s) * phi (a_value (i_core s))) l) / INR (length l).
