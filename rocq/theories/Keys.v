(** JAX random keys as a free algebra: [KSplit k n i] is the i-th of the [n]
    keys returned by [random.split(k, n)]. *)
From Coq Require Import List Arith.
Import ListNotations.

Inductive key : Type :=
| KRoot (seed : nat)
| KSplit (k : key) (n i : nat).

(** [k1] was derived from [k2] by splitting (or is [k2]). *)
Inductive derived (k2 : key) : key -> Prop :=
| derived_refl : derived k2 k2
| derived_split : forall k n i, derived k2 k -> derived k2 (KSplit k n i).

Definition key_eq_dec : forall a b : key, {a = b} + {a <> b}.
Proof. decide equality; apply Nat.eq_dec. Defined.
