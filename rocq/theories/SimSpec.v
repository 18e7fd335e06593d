(** What the simulators should do, independent of the model. *)
From Coq Require Import Reals ZArith List.
From Verif Require Import XR.
Import ListNotations.
Open Scope R_scope.

(** Consecutive elements are related. *)
Fixpoint path {A : Type} (step : A -> A -> Prop) (x : A) (l : list A) : Prop :=
  match l with [] => True | y :: l' => step x y /\ path step y l' end.

(** Epidemic: (susceptible, infected); infection and removal. *)
Inductive sir_event : Z * Z -> Z * Z -> Prop :=
| infection s i : (0 < s)%Z -> (0 < i)%Z -> sir_event (s, i) (s - 1, i + 1)%Z
| removal s i : (0 < i)%Z -> sir_event (s, i) (s, i - 1)%Z.
Definition infection_rate (beta n : R) (s i : Z) : R := beta * IZR s * IZR i / n.
Definition removal_rate (gamma : R) (i : Z) : R := gamma * IZR i.

(** Predator and prey: (prey, predators). *)
Inductive lv_event : Z * Z -> Z * Z -> Prop :=
| birth a b : (0 < a)%Z -> lv_event (a, b) (a + 1, b)%Z
| predation a b : (0 < a)%Z -> (0 < b)%Z -> lv_event (a, b) (a - 1, b + 1)%Z
| death a b : (0 < b)%Z -> lv_event (a, b) (a, b - 1)%Z.

Definition nonneg (c : Z * Z) : Prop := (0 <= fst c)%Z /\ (0 <= snd c)%Z.

(** [later t u]: the event at [u] happens after the finite time [t]; it may
    never happen. *)
Definition later (t u : xr) : Prop :=
  match t, u with Fin r, Fin s => r < s | Fin _, PInf => True | _, _ => False end.
Definition no_earlier (t u : xr) : Prop :=
  match t, u with Fin r, Fin s => r <= s | _, _ => False end.

(** The state of a trajectory (states with the time they were entered, in order)
    in force immediately before time [t]; there is none when the trajectory ends
    before [t]. *)
Inductive in_force {A : Type} (t : R) : list (A * xr) -> A -> Prop :=
| in_force_start c u : xleb (Fin t) u = true -> in_force t [(c, u)] c
| in_force_now c u c' u' l : xleb (Fin t) u' = true -> in_force t ((c, u) :: (c', u') :: l) c
| in_force_later c u c' u' l a : xltb u' (Fin t) = true -> in_force t ((c', u') :: l) a ->
                                 in_force t ((c, u) :: (c', u') :: l) a.

(** One step of the predator-prey trajectory; nothing happens any more once
    both have died out. *)
Definition lv_next (x y : (Z * Z) * xr) : Prop :=
  later (snd x) (snd y)
  /\ ((lv_event (fst x) (fst y) /\ snd y <> PInf) \/ (fst x = (0, 0)%Z /\ snd y = PInf)).
