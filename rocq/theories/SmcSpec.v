(** Specification notions for SMC, independent of the update's definition. *)
From Coq Require Import Reals List Arith.
From Verif Require Import XR Keys McmcModel WeightsSpec SmcModel.
Import ListNotations.
Open Scope R_scope.

(** What [random.categorical] guarantees: [n] indices in range, each of a
    category of positive weight if there is one. *)
Definition categorical_ok (categorical : key -> list xr -> nat -> list nat) : Prop :=
  forall k lw n, length lw = n ->
    length (categorical k lw n) = n
    /\ List.Forall (fun i => (i < n)%nat) (categorical k lw n)
    /\ (lw_ok lw -> List.Forall (fun i => finite (nth i lw NInf)) (categorical k lw n)).

(** All particles carry the same temperature, ess and normalising constant. *)
Definition shared (E : ensemble) : Prop :=
  forall p q, In p E -> In q E -> p_temp p = p_temp q /\ p_ess p = p_ess q /\ p_lnc p = p_lnc q.

(** A scenario without internal randomness, values finite or plus infinity. *)
Definition potential_ok (u : vec -> key -> xr) : Prop :=
  forall v, exists x, (finite x \/ x = PInf) /\ forall k, u v k = x.

(** A particle's potentials are those of the scenario at its value and
    temperature. *)
Definition consistent (prior lik : vec -> key -> xr) (p : part) : Prop :=
  forall k, p_prior p = prior (p_value p) k
         /\ p_lik p = lik (p_value p) k
         /\ p_pot p = xadd (prior (p_value p) k) (xmul (Fin (p_temp p)) (lik (p_value p) k)).

(** What is needed of the inner sampler: its potential is the scenario's at the
    current temperature, and a move is only ever made to a point of finite
    potential. *)
Definition inner_ok (prior lik : vec -> key -> xr) (inner : R -> R -> key -> vec -> (vec * xr * xr) * key) : Prop :=
  forall t step k v, 0 < t ->
    let '((v', pot, _), fk) := inner t step k v in
    (forall k', pot = tpot prior lik t v' k') /\ (finite pot \/ v' = v).

(** Weighted average of [x] under the normalised weights [w]. *)
Definition weighted_mean (w x : list R) : R :=
  Rsum (map (fun wx => fst wx * snd wx) (combine w x)) / Rsum w.
