(** Specification of a while loop, independent of the model. *)
From Coq Require Import List Arith Bool.
Import ListNotations.

(** The carry after [k] updates. *)
Fixpoint iterate {St Ex : Type} (body : St -> Ex -> St * Ex) (k : nat) (c : St * Ex) : St * Ex :=
  match k with
  | 0 => c
  | S k' => let c' := iterate body k' c in body (fst c') (snd c')
  end.

Lemma iterate_succ_l {St Ex : Type} (body : St -> Ex -> St * Ex) k c :
  iterate body (S k) c = iterate body k (body (fst c) (snd c)).
Proof. induction k as [|k IH]; simpl in *; congruence. Qed.

(** The states produced by updates 1..k, in order. *)
Definition iterates {St Ex : Type} (body : St -> Ex -> St * Ex) (c : St * Ex) (k : nat) : list St :=
  map (fun j => fst (iterate body (S j) c)) (seq 0 k).

(** [k] is the number of iterations of
    [i = 0; while i < m and cond(c): c = body(c); i += 1]. *)
Definition stops_at {St Ex : Type} (cond : St -> Ex -> bool) (body : St -> Ex -> St * Ex)
  (c : St * Ex) (m k : nat) : Prop :=
  k <= m
  /\ (forall j, j < k -> cond (fst (iterate body j c)) (snd (iterate body j c)) = true)
  /\ (k = m \/ cond (fst (iterate body k c)) (snd (iterate body k c)) = false).
