(** Model of the stacked while loop and of [run].

    Source: mocat/src/utils.py 159-202 and mocat/src/sample.py 110-148. *)
From Coq Require Import List Arith Bool.
Import ListNotations.

(** [jax.lax.scan f init xs]: threads the carry through the list [xs] and
    stacks the outputs.  Simplification: a stack is a list. *)
Fixpoint scan {C X O : Type} (f : C -> X -> C * O) (c : C) (xs : list X) : C * list O :=
  match xs with
  | [] => (c, [])
  | x :: xs' =>
      let (c1, o) := f c x in
      let (c2, os) := scan f c1 xs' in
      (c2, o :: os)
  end.

Section Stacked.
  (** [St] is the part of the carry that is stacked, [Ex] the part that is not
      ("extra"), utils.py 164-167. *)
  Context {St Ex : Type}.
  Variable cond_fun : St -> Ex -> bool.
  Variable body_fun : St -> Ex -> St * Ex.
  Variable init_carry : St * Ex.

  (** utils.py 169-175, [update_cond]. *)
  Definition update_cond (previous_carry : St * Ex) (final_iter live_iter : nat) : bool :=
    if live_iter <=? final_iter + 1
    then cond_fun (fst previous_carry) (snd previous_carry)
    else false.

  (** utils.py 177-190, [update_kernel]. *)
  Definition update_kernel (pvfi : (St * Ex) * nat) (live_iter : nat)
    : ((St * Ex) * nat) * St :=
    let (previous_val, final_iter) := pvfi in
    let update_bool := update_cond previous_val final_iter live_iter in
    let final_iter' := if update_bool then live_iter else final_iter in
    let new_val := if update_bool
                   then body_fun (fst previous_val) (snd previous_val)
                   else init_carry in
    ((new_val, final_iter'), fst new_val).

  (** utils.py 159-194, [_while_loop_stacked]: stack, final carry, final
      iteration.  [jnp.arange(1, max_iter + 1)] is [seq 1 max_iter]. *)
  Definition while_loop_stacked_raw (max_iter : nat) : list St * (St * Ex) * nat :=
    let '((final_val, final_iter), stack) :=
      scan update_kernel (init_carry, 0) (seq 1 max_iter) in
    (stack, final_val, final_iter).

  (** utils.py 197-202, [while_loop_stacked]: slices the stack. *)
  Definition while_loop_stacked (max_iter : nat) : list St :=
    let '(full_stack, _, final_int) := while_loop_stacked_raw max_iter in
    firstn final_int full_stack.
End Stacked.

(** sample.py 135-140, the loop of [run]: the chain is the initial state
    followed by the stacked updates.  Simplifications: [clean_chain], timing
    and the summary are not part of this definition; the concatenation of the
    stacked attributes is modelled as list consing here and related to
    [cdict.__add__] in the cdict model. *)
Definition run_loop {St Ex : Type} (terminate : St -> Ex -> bool)
  (update : St -> Ex -> St * Ex) (init : St * Ex) (max_iter : nat) : list St :=
  fst init :: while_loop_stacked (fun s e => negb (terminate s e)) update init max_iter.

(** utils.py 17-22, [leave_one_out_indices]: [jnp.where(arange(n) < i,
    full_inds[:-1], full_inds[1:])] with [full_inds = arange(n+1)]. *)
Definition leave_one_out_indices (n remove_index : nat) : list nat :=
  let full_inds := seq 0 (n + 1) in
  map (fun t => match t with (j, (a, b)) => if j <? remove_index then a else b end)
      (combine (seq 0 n) (combine (removelast full_inds) (tl full_inds))).
