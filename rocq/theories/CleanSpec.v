(** Specification of one-dimensional scenarios: potentials act on each entry. *)
From Coq Require Import Reals List.
From Verif Require Import Keys CleanModel.
Import ListNotations.
Open Scope R_scope.

(** a user's function that maps the rows of an (n, 1) array to n values *)
Definition rowwise (f : arr -> option key -> res) (g : R -> option key -> R) : Prop :=
  forall xs k, f (Arr [length xs; 1%nat] xs) k = Val (Arr [length xs] (map (fun x => g x k) xs)).

(** the values at the entries: a scalar when there is only one *)
Definition entries (vs : list R) : arr := Arr (match vs with [_] => [] | _ => [length vs] end) vs.

(** with enough nested calls the result is [r] *)
Definition returns (s : scen) (f : option fn) (x : arr) (k : karg) (r : res) : Prop :=
  exists m, forall fuel, (m <= fuel)%nat -> call fuel s f x k = r.
