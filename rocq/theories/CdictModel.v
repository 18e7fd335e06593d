(** Model of [cdict] (mocat/src/core.py 20-88) as a value tree.

    Simplifications.  An array of any positive number of axes is stored as its
    trailing shape together with the list of its rows, every row flattened;
    a zero-dimensional array is its single entry.  Dtypes are ignored.  Python
    objects that are neither arrays, numbers nor cdicts are opaque ([VObj]).
    Attributes of an instance are an association list in insertion order.
    Sharing between objects is not modelled here (SamplerModel.v has some). *)
From Coq Require Import String.
From Coq Require Import List Arith ZArith Bool.
Import ListNotations.
Open Scope string_scope.

Inductive arr (X : Type) : Type :=
| A0 : X -> arr X
| AN : list nat -> list (list X) -> arr X.
Arguments A0 {X}. Arguments AN {X}.

Inductive val (X O : Type) : Type :=
| VArr : arr X -> val X O            (* jnp.ndarray *)
| VNum : X -> val X O                (* python number *)
| VObj : O -> val X O                (* string, None, function, ... *)
| VCd : bool -> list (string * val X O) -> val X O.  (* cdict; true: static_cdict *)
Arguments VArr {X O}. Arguments VNum {X O}. Arguments VObj {X O}. Arguments VCd {X O}.

Definition prod_list (l : list nat) : nat := fold_right Nat.mul 1 l.

(** Splitting a flat row into [n] chunks of [b] entries (row major order). *)
Fixpoint chunks {X} (n b : nat) (l : list X) : list (list X) :=
  match n with
  | 0 => []
  | S n' => firstn b l :: chunks n' b (skipn b l)
  end.

(** The items a cdict is indexed with (core.py 46-47): an integer, a slice
    with unit step, an integer array, [jnp.newaxis].  Strings are
    [cd_getattr]. *)
Inductive index : Type :=
| IInt (i : Z)
| ISlice (start stop : option Z)
| IArr (l : list Z)
| INew.

(** JAX index normalisation: negative indices count from the end, out of range
    indices are clamped. *)
Definition norm_index (n : nat) (i : Z) : nat :=
  let i' := if (i <? 0)%Z then (i + Z.of_nat n)%Z else i in
  Z.to_nat (Z.max 0 (Z.min i' (Z.of_nat n - 1))).

(** Slice bounds (python rule: negative from the end, then clamped to 0..n). *)
Definition norm_bound (n : nat) (i : Z) : nat :=
  let i' := if (i <? 0)%Z then (i + Z.of_nat n)%Z else i in
  Z.to_nat (Z.max 0 (Z.min i' (Z.of_nat n))).

Definition slice_rows {A} (start stop : option Z) (rows : list A) : list A :=
  let n := length rows in
  let a := match start with None => 0 | Some i => norm_bound n i end in
  let b := match stop with None => n | Some i => norm_bound n i end in
  firstn (b - a) (skipn a rows).

(** Gather; an empty axis cannot be indexed (JAX raises). *)
Definition gather_rows {A} (l : list Z) (rows : list A) : option (list A) :=
  match rows with
  | [] => match l with [] => Some [] | _ => None end
  | r0 :: _ => Some (map (fun i => nth (norm_index (length rows) i) rows r0) l)
  end.

(** Indexing the leading axis of an array with at least one axis. *)
Definition index_rows {X} (ix : index) (tr : list nat) (rows : list (list X)) : option (arr X) :=
  match ix with
  | IInt i =>
      match rows with
      | [] => None
      | r0 :: _ =>
          let r := nth (norm_index (length rows) i) rows r0 in
          match tr with
          | [] => match r with x :: _ => Some (A0 x) | [] => None end
          | n :: tr' => Some (AN tr' (chunks n (prod_list tr') r))
          end
      end
  | ISlice a b => Some (AN tr (slice_rows a b rows))
  | IArr l => option_map (AN tr) (gather_rows l rows)
  | INew => Some (AN (length rows :: tr) [concat rows])
  end.

Section Cdict.
  Context {X O : Type}.
  Notation val := (val X O).
  Notation kvs := (list (string * val)).

  (** core.py 25-26, [copy]: always a plain cdict, also for a static one. *)
  Definition cd_copy (c : bool * kvs) : bool * kvs := (false, snd c).

  (** core.py 48-49. [None] is KeyError. *)
  Definition cd_getattr (k : string) (c : kvs) : option val :=
    match find (fun kv => String.eqb (fst kv) k) c with
    | Some kv => Some (snd kv)
    | None => None
    end.

  (** core.py 51-56, body of the loop for one attribute: arrays with [ndim > 0]
      and non-static cdicts are indexed, anything else is kept.  [None] is an
      exception. *)
  Fixpoint getitem_val (ix : index) (v : val) : option val :=
    match v with
    | VArr (AN tr rows) => option_map VArr (index_rows ix tr rows)
    | VCd false c =>
        option_map (VCd false)
          ((fix go (l : kvs) : option kvs :=
              match l with
              | [] => Some []
              | (k, w) :: l' =>
                  match getitem_val ix w, go l' with
                  | Some w', Some r => Some ((k, w') :: r)
                  | _, _ => None
                  end
              end) c)
    | _ => Some v
    end.

  (** core.py 46-56, [__getitem__] on a cdict (static or not). *)
  Definition cd_getitem (ix : index) (c : bool * kvs) : option val :=
    getitem_val ix (let (b, l) := cd_copy c in VCd b l).

  (** [jnp.atleast_1d] of an attribute; opaque objects and cdicts raise. *)
  Definition atleast_1d (v : val) : option (list nat * list (list X)) :=
    match v with
    | VArr (A0 x) => Some ([], [[x]])
    | VArr (AN tr rows) => Some (tr, rows)
    | VNum x => Some ([], [[x]])
    | _ => None
    end.

  (** [jnp.append(a, b, axis=0)]: trailing shapes must agree. *)
  Definition append0 (a b : list nat * list (list X)) : option (arr X) :=
    if list_eq_dec Nat.eq_dec (fst a) (fst b)
    then Some (AN (fst a) (snd a ++ snd b))
    else None.

  Definition is_array (v : val) : bool := match v with VArr _ => true | _ => false end.
  Definition is_dyn (v : val) : bool := match v with VCd false _ => true | _ => false end.

  (** Names every cdict has because of its class, core.py 25-84. *)
  Definition class_attrs : list string :=
    ["copy"; "deepcopy"; "save"; "tree_flatten"; "tree_unflatten"; "is_empty"; "keys"].

  (** [+] of two python numbers. *)
  Variable xadd : X -> X -> X.
  (** [+] of two opaque objects (e.g. strings); [None] raises. *)
  Variable oadd : O -> O -> option O.

  (** core.py 58-74, [__add__].  The recursion is on the left operand.  The
      first argument tells whether the attribute's name is 'time'.
      Simplification: a cdict stored under the name 'time' added to something
      that is neither a cdict nor an array counts as an exception. *)
  Fixpoint add_val (istime : bool) (v w : val) : option val :=
    if (is_array v || is_array w)%bool then
      match atleast_1d v, atleast_1d w with
      | Some a, Some b => option_map VArr (append0 a b)
      | _, _ => None
      end
    else if ((is_dyn v && is_dyn w) || istime)%bool then
      match v, w with
      | VCd _ c, VCd _ d =>
          option_map (VCd false)
          ((fix go (l : kvs) : option kvs :=
              match l with
              | [] => Some []
              | (k, a) :: l' =>
                  let a' :=
                    match cd_getattr k d with
                    | Some b => add_val (String.eqb k "time") a b
                    | None =>
                        if existsb (String.eqb k) class_attrs then None else Some a
                    end in
                  match a', go l' with
                  | Some a'', Some r => Some ((k, a'') :: r)
                  | _, _ => None
                  end
              end) c)
      | VNum x, VNum y => Some (VNum (xadd x y))
      | VObj x, VObj y => option_map VObj (oadd x y)
      | _, _ => None
      end
    else Some v.

  (** [__add__] called on a cdict: [other] is None or a cdict.  Written by
      forcing the cdict branch of [add_val]. *)
  Definition cd_add (c : bool * kvs) (other : option (bool * kvs)) : option val :=
    match other with
    | None => Some (VCd false (snd c))
    | Some d => add_val true (VCd (fst c) (snd c)) (VCd (fst d) (snd d))
    end.

  (** core.py 39-44: [tree_flatten]/[tree_unflatten] used through JAX's
      recursive flattening.  Only cdict itself is registered as a pytree
      (line 20), so a static cdict is a leaf.  Simplification: other python
      containers are opaque leaves. *)
  Inductive treedef : Type :=
  | TLeaf : treedef
  | TNode : list (string * treedef) -> treedef.

  Fixpoint leaves (v : val) : list val :=
    match v with
    | VCd false c => flat_map (fun kv => leaves (snd kv)) c
    | _ => [v]
    end.

  Fixpoint structure (v : val) : treedef :=
    match v with
    | VCd false c => TNode (map (fun kv => (fst kv, structure (snd kv))) c)
    | _ => TLeaf
    end.

  Fixpoint unflatten (t : treedef) (ls : list val) : option (val * list val) :=
    match t with
    | TLeaf => match ls with [] => None | l :: ls' => Some (l, ls') end
    | TNode kts =>
        match (fix go (l : list (string * treedef)) (ls : list val) : option (kvs * list val) :=
                 match l with
                 | [] => Some ([], ls)
                 | (k, t') :: l' =>
                     match unflatten t' ls with
                     | Some (v, ls1) =>
                         match go l' ls1 with
                         | Some (r, ls2) => Some ((k, v) :: r, ls2)
                         | None => None
                         end
                     | None => None
                     end
                 end) kts ls with
        | Some (c, ls') => Some (VCd false c, ls')
        | None => None
        end
    end.

  (** [jax.tree_util.tree_map f]. *)
  Definition tree_map (f : val -> val) (v : val) : option val :=
    match unflatten (structure v) (map f (leaves v)) with
    | Some (w, []) => Some w
    | _ => None
    end.

  (** The stacking done by [jax.lax.scan] on the states of a run (utils.py
      192, called from sample.py 135-138): attributewise, the prototype giving
      keys and shapes. [None] stands for a structure mismatch, which JAX
      rejects. *)
  Definition stack_arrs (proto : arr X) (l : list (arr X)) : option (arr X) :=
    match proto with
    | A0 _ =>
        option_map (AN [])
          (fold_right (fun a r => match a, r with A0 x, Some r' => Some ([x] :: r') | _, _ => None end)
             (Some []) l)
    | AN tr rows =>
        option_map (AN (length rows :: tr))
          (fold_right (fun a r =>
             match a, r with
             | AN tr' rows', Some r' =>
                 if list_eq_dec Nat.eq_dec tr tr'
                 then if Nat.eq_dec (length rows) (length rows')
                      then Some (concat rows' :: r') else None
                 else None
             | _, _ => None
             end) (Some []) l)
    end.

  Fixpoint sequence {A} (l : list (option A)) : option (list A) :=
    match l with
    | [] => Some []
    | Some a :: l' => option_map (cons a) (sequence l')
    | None :: _ => None
    end.

  (** Leaf case: arrays and numbers (which JAX turns into 0-d arrays). *)
  Definition as_arr (v : val) : option (arr X) :=
    match v with VArr a => Some a | VNum x => Some (A0 x) | _ => None end.

  Fixpoint stack_vals (proto : val) (vs : list val) : option val :=
    match proto with
    | VCd false c =>
        option_map (VCd false)
          ((fix go (l : kvs) : option kvs :=
              match l with
              | [] => Some []
              | (k, p) :: l' =>
                  let column :=
                    sequence (map (fun v => match v with VCd false d => cd_getattr k d | _ => None end) vs) in
                  match column with
                  | Some col =>
                      match stack_vals p col, go l' with
                      | Some s, Some r => Some ((k, s) :: r)
                      | _, _ => None
                      end
                  | None => None
                  end
              end) c)
    | _ =>
        match as_arr proto, sequence (map as_arr vs) with
        | Some p, Some l => option_map VArr (stack_arrs p l)
        | _, _ => None
        end
    end.
End Cdict.
