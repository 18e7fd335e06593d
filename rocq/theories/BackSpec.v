(** Specification of backward simulation. *)
From Coq Require Import Reals List Arith.
From Verif Require Import XR Keys WeightsSpec.
Import ListNotations.
Open Scope R_scope.

(** What one [random.categorical] draw guarantees. *)
Definition categorical1_ok (cat1 : key -> list xr -> nat) : Prop :=
  forall k lw, lw <> [] -> (cat1 k lw < length lw)%nat
    /\ (lw_ok lw -> finite (nth (cat1 k lw) lw NInf)).

(** Any number of draws with one key; the number need not be that of the
    categories. *)
Definition categorical_n_ok (cat : key -> list xr -> nat -> list nat) : Prop :=
  forall k lw n, (lw = [] -> n = 0%nat) ->
    length (cat k lw n) = n
    /\ List.Forall (fun i => (i < length lw)%nat) (cat k lw n)
    /\ (lw_ok lw -> List.Forall (fun i => finite (nth i lw NInf)) (cat k lw n)).

(** Candidate [a] for target [i] passes the rejection test with bound [b] and
    uniform draw [u], and the bound is valid for it. *)
Definition passes {A} (dens : nat -> A -> xr) (b : R) (i : nat) (a : A) (u : R) : Prop :=
  exists d, dens i a = Fin d /\ d <= b /\ u <= d / b.

Section S.
  Context {X : Type}.
  Variable dx : X.

  (** [x] is a particle of positive weight *)
  Definition weighted_particle (row : list X) (lw : list xr) (x : X) : Prop :=
    exists i, (i < length row)%nat /\ x = nth i row dx /\ finite (nth i lw NInf).

  (** every particle of positive weight can be reached from one of the row before *)
  Definition reachable {Tm : Type} (pot : X -> Tm -> X -> Tm -> xr) (row0 : list X) (lw0 : list xr) (t0 : Tm)
    (row1 : list X) (lw1 : list xr) (t1 : Tm) : Prop :=
    forall x1, weighted_particle row1 lw1 x1 ->
    exists x0, weighted_particle row0 lw0 x0 /\ finite (pot x0 t0 x1 t1).

  (** filter output fit for backward simulation: [T] rows of as many particles
      as log weights, some of positive weight *)
  Definition filter_rows (T : nat) (V : list (list X)) (W : list (list xr)) : Prop :=
    length V = T /\ length W = T
    /\ forall s, (s < T)%nat -> length (nth s W []) = length (nth s V []) /\ lw_ok (nth s W []).
End S.
