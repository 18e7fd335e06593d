(** Expected values over the random streams of a run.

    A random stream gives every key a value.  The values at distinct keys are
    independent with one law [P]; nothing is assumed about keys that are equal.
    So a program that uses a key twice gets the same value twice.  A run uses
    finitely many keys: its expected value is one sum per key, over any list of
    distinct keys that is long enough. *)
From Coq Require Import Reals List Arith.
From Verif Require Import Keys UnbSpec.
Import ListNotations.
Open Scope R_scope.

Section K.
  Context {W : Type}.
  Variable P : law W.

  Definition upd (w : key -> W) (k : key) (x : W) : key -> W :=
    fun k' => if key_eq_dec k' k then x else w k'.

  (** the values at [ks] random, the others those of [w] *)
  Fixpoint kexp (ks : list key) (F : (key -> W) -> R) (w : key -> W) : R :=
    match ks with
    | [] => F w
    | k :: r => mean P (fun x => kexp r F (upd w k x))
    end.

  (** [v] is the expected value of [F] over the random values at [ks], whatever
      the values at other keys and however many of them are random *)
  Definition mean_on (ks : list key) (F : (key -> W) -> R) (v : R) : Prop :=
    forall ks' w, NoDup ks' -> incl ks ks' -> kexp ks' F w = v.

  Definition has_mean (F : (key -> W) -> R) (v : R) : Prop := exists ks, mean_on ks F v.

  (** the value [a] of a run, computed from the stream, has the law whose
      expected values are [M] *)
  Definition has_law {T} (a : (key -> W) -> T) (M : (T -> R) -> R) : Prop :=
    exists ks, forall phi, mean_on ks (fun w => phi (a w)) (M phi).
End K.
