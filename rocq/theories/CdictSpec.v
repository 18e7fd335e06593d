(** Specification vocabulary for cdicts, independent of the operations. *)
From Coq Require Import String.
From Coq Require Import List Arith ZArith Bool.
From Verif Require Import CdictModel.
Import ListNotations.
Open Scope string_scope.

(** The row an integer picks out of [n] rows: counted from the front, from the
    end when negative, the nearest one when out of range. *)
Inductive picks (n : nat) : Z -> nat -> Prop :=
| pick_front j : j < n -> picks n (Z.of_nat j) j
| pick_back j : 0 < j <= n -> picks n (- Z.of_nat j)%Z (n - j)
| pick_above i : (Z.of_nat n <= i)%Z -> picks n i (n - 1)
| pick_below i : (i < - Z.of_nat n)%Z -> picks n i 0.

(** The position a slice bound stands for. *)
Inductive bound (n : nat) : Z -> nat -> Prop :=
| bound_front j : j <= n -> bound n (Z.of_nat j) j
| bound_back j : 0 < j <= n -> bound n (- Z.of_nat j)%Z (n - j)
| bound_above i : (Z.of_nat n < i)%Z -> bound n i n
| bound_below i : (i < - Z.of_nat n)%Z -> bound n i 0.

Section S.
  Context {X O : Type}.
  Notation val := (val X O).

  (** The value found by following attribute names, e.g. [c.a.b]. *)
  Fixpoint at_path (v : val) (p : list string) : option val :=
    match p with
    | [] => Some v
    | k :: p' =>
        match v with
        | VCd _ c => match cd_getattr k c with Some w => at_path w p' | None => None end
        | _ => None
        end
    end.

  (** The same, but never descending into a static cdict. *)
  Fixpoint dyn_path (v : val) (p : list string) : option val :=
    match p with
    | [] => Some v
    | k :: p' =>
        match v with
        | VCd false c => match cd_getattr k c with Some w => dyn_path w p' | None => None end
        | _ => None
        end
    end.

  (** What indexing should do to the value at a path: arrays with an axis are
      indexed along their leading axis, cdicts keep their names in order,
      everything else is unchanged. *)
  Definition indexed_as (ix : index) (w : val) (w' : option val) : Prop :=
    match w with
    | VArr (AN tr rows) =>
        exists a, index_rows ix tr rows = Some a /\ w' = Some (VArr a)
    | VCd false d => exists d', w' = Some (VCd false d') /\ map fst d' = map fst d
    | _ => w' = Some w
    end.

  (** Attribute names are unique at every level (python dictionaries). *)
  Fixpoint wf (v : val) : Prop :=
    match v with
    | VCd _ c => NoDup (map fst c)
                 /\ (fix all (l : list (string * val)) : Prop :=
                       match l with [] => True | (_, w) :: l' => wf w /\ all l' end) c
    | _ => True
    end.

  (** Two chains of the same sampler: the same names in the same order, arrays
      of at least one axis with the same trailing shape, nested likewise;
      numbers with numbers, opaque with opaque, static with static. *)
  Fixpoint same_kind (v w : val) : Prop :=
    match v, w with
    | VArr (AN t1 _), VArr (AN t2 _) => t1 = t2
    | VNum _, VNum _ => True
    | VObj _, VObj _ => True
    | VCd true _, VCd true _ => True
    | VCd false c, VCd false d =>
        (fix all (l m : list (string * val)) : Prop :=
           match l, m with
           | [], [] => True
           | (k, a) :: l', (k', b) :: m' => k = k' /\ same_kind a b /\ all l' m'
           | _, _ => False
           end) c d
    | _, _ => False
    end.

  (** No number or opaque object is called 'time' and every array has an axis. *)
  Fixpoint splittable (v : val) : Prop :=
    match v with
    | VArr (A0 _) => False
    | VCd false c =>
        (fix all (l : list (string * val)) : Prop :=
           match l with
           | [] => True
           | (k, w) :: l' =>
               splittable w
               /\ (k = "time" -> match w with VArr _ => True | VCd false _ => True | _ => False end)
               /\ all l'
           end) c
    | _ => True
    end.
End S.
