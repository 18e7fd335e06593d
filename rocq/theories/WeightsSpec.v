(** Specification of weights, independent of the model: plain real sums. *)
From Coq Require Import Reals List.
From Verif Require Import XR.
Import ListNotations.
Open Scope R_scope.

Fixpoint Rsum (l : list R) : R := match l with [] => 0 | x :: l' => x + Rsum l' end.

(** The weight with log weight [x]; minus infinity is weight 0. *)
Definition weight (x : xr) : R := match x with Fin r => exp r | _ => 0 end.
Definition weights (l : list xr) : list R := map weight l.

(** Log weights of an ensemble: finite or minus infinity, not all minus
    infinity. *)
Definition lw_ok (l : list xr) : Prop :=
  List.Forall (fun x => x = NInf \/ finite x) l /\ List.Exists finite l.

(** Kish's effective sample size *)
Definition kish (w : list R) : R := (Rsum w) ^ 2 / Rsum (map (fun x => x ^ 2) w).
