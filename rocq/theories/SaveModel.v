(** Model of [save_cdict] and [load_cdict], mocat/src/core.py 91-121.

    A path is a directory (opaque) and a final component, a non-empty list of
    characters.  The file system maps paths to files.  A file holds either the
    pickle of one object or an incomplete pickle.  Simplifications: creating
    the parent directory (line 97) always succeeds, no other process touches
    the files, pickling is faithful, and the conversion of loaded arrays to
    device arrays (lines 117-119) does not change values. *)
From Coq Require Import List Arith Bool Ascii.
Import ListNotations.

Definition name := list ascii.

Definition dot : ascii := "."%char.
Definition cdict_suffix : name := [dot; "c"; "d"; "i"; "c"; "t"]%char.

Definition name_eqb (a b : name) : bool := if list_eq_dec ascii_dec a b then true else false.

(** [str.rfind('.')]: the position of the last dot. *)
Fixpoint rfind_dot (s : name) : option nat :=
  match s with
  | [] => None
  | c :: s' =>
      match rfind_dot s' with
      | Some i => Some (S i)
      | None => if Ascii.eqb c dot then Some 0 else None
      end
  end.

(** [PurePath.suffix]: from the last dot on, unless the dot is the first or
    the last character. *)
Definition suffix (s : name) : name :=
  match rfind_dot s with
  | Some i => if (0 <? i) && (i <? length s - 1) then skipn i s else []
  | None => []
  end.

(** [PurePath.with_suffix]: replaces the suffix, or appends when there is none. *)
Definition with_suffix (s new : name) : name :=
  match suffix s with
  | [] => s ++ new
  | _ :: _ => firstn (length s - length (suffix s)) s ++ new
  end.

(** core.py 95-96 *)
Definition save_name (s : name) : name :=
  if name_eqb (suffix s) cdict_suffix then s else with_suffix s cdict_suffix.

Section FS.
  Context {D C : Type}.
  Variable D_eq_dec : forall a b : D, {a = b} + {a <> b}.

  Inductive file : Type := Full (c : C) | Incomplete.
  Definition path : Type := D * name.
  Definition fs : Type := path -> option file.

  Definition path_eq_dec (p q : path) : {p = q} + {p <> q}.
  Proof. decide equality. apply (list_eq_dec ascii_dec). Defined.

  Definition upd (f : fs) (p : path) (x : option file) : fs :=
    fun q => if path_eq_dec q p then x else f q.

  (** The operations on the file system, each atomic. *)
  Inductive op : Type :=
  | Unlink (p : path)             (* line 100 *)
  | Truncate (p : path)           (* line 103, open(..., 'wb') *)
  | WriteAll (p : path) (c : C).  (* line 104, the dump completed *)

  Definition do_op (f : fs) (o : op) : fs :=
    match o with
    | Unlink p => upd f p None
    | Truncate p => upd f p (Some Incomplete)
    | WriteAll p c => upd f p (Some (Full c))
    end.

  Definition target (p : path) : path := (fst p, save_name (snd p)).

  (** core.py 91-104, the operations performed; [None] is the RuntimeError. *)
  Definition save_ops (f : fs) (c : C) (p : path) (overwrite : bool) : option (list op) :=
    let q := target p in
    match f q with
    | Some _ => if overwrite then Some [Unlink q; Truncate q; WriteAll q c] else None
    | None => Some [Truncate q; WriteAll q c]
    end.

  (** A save that is not interrupted; the boolean tells whether it succeeded. *)
  Definition save (f : fs) (c : C) (p : path) (overwrite : bool) : fs * bool :=
    match save_ops f c p overwrite with
    | Some ops => (fold_left do_op ops f, true)
    | None => (f, false)
    end.

  (** A save interrupted after [k] operations. *)
  Definition save_crash (k : nat) (f : fs) (c : C) (p : path) (overwrite : bool) : fs :=
    match save_ops f c p overwrite with
    | Some ops => fold_left do_op (firstn k ops) f
    | None => f
    end.

  (** core.py 107-121; [None] is an exception. *)
  Definition load (f : fs) (p : path) : option C :=
    match f p with
    | None => None
    | Some x =>
        if name_eqb (suffix (snd p)) cdict_suffix
        then match x with Full c => Some c | Incomplete => None end
        else None
    end.

  (** A history of saves. *)
  Fixpoint saves (f : fs) (h : list (C * path * bool)) : fs :=
    match h with
    | [] => f
    | (c, p, ow) :: h' => saves (fst (save f c p ow)) h'
    end.
End FS.
Arguments file : clear implicits.
