(** Model of one-dimensional scenarios: [clean_1d] (mocat/src/core.py 133-143)
    and its calls from [Scenario.__init__] (161-194).

    Arrays are a shape and the entries in row-major order.  Attributes hold
    function values; [cleaned_func] (137-141) and the lambda assigned to
    [potential] (190-194) look attributes up on the scenario when they are
    called, so calls take the store, and a number of nested calls allowed
    ([Loop] when it is exceeded, for Python's RecursionError).

    Simplifications: gradients are not in this model (ScenarioModel);
    broadcasting in the sum of line 191 is modelled for equal shapes and for a
    scalar with any array, other shapes raise; [name] and the warning on line
    187 are omitted; the temperature is 1 or a class attribute, as there. *)
From Coq Require Import Reals List Bool Arith.
From Verif Require Import Keys.
Import ListNotations.
Open Scope R_scope.

Record arr : Type := Arr { sh : list nat; dat : list R }.

Inductive res : Type :=
| Val (a : arr)
| Raise
| Loop.
Definition bind (r : res) (f : arr -> res) : res := match r with Val a => f a | Raise => Raise | Loop => Loop end.

(** 139: [jnp.atleast_1d] *)
Definition atleast_1d (a : arr) : arr := match sh a with [] => Arr [1%nat] (dat a) | _ => a end.
(** 140: [jnp.reshape(x, (x.size, 1))] *)
Definition column (a : arr) : arr := Arr [length (dat a); 1%nat] (dat a).
(** 141: [jnp.squeeze] *)
Definition squeeze (a : arr) : arr := Arr (filter (fun n => negb (n =? 1)%nat) (sh a)) (dat a).

(** 191-192: sum of the prior's value and [t] times the likelihood's *)
Definition tempered_sum (t : R) (a b : arr) : res :=
  if list_eq_dec Nat.eq_dec (sh a) (sh b) then Val (Arr (sh a) (map (fun uv => fst uv + t * snd uv) (combine (dat a) (dat b))))
  else match sh a, dat a with
       | [], [u] => Val (Arr (sh b) (map (fun v => u + t * v) (dat b)))
       | _, _ => match sh b, dat b with
                 | [], [v] => Val (Arr (sh a) (map (fun u => u + t * v) (dat a)))
                 | _, _ => Raise
                 end
       end.

(** The attributes 'potential', 'prior_potential', 'likelihood_potential'. *)
Inductive attr : Type := Pot | Prior | Lik.
Definition attr_eqb (a b : attr) : bool := match a, b with Pot, Pot | Prior, Prior | Lik, Lik => true | _, _ => false end.

(** The random key of a call: not given, or given (perhaps None). *)
Inductive karg : Type := Missing | Given (k : option key).
Definition default (k : karg) : option key := match k with Missing => None | Given k => k end.

(** Function values: the user's (with a default for the random key, as in the
    class's own signatures); [cleaned_func] for an attribute; the zero prior
    (180, 188); the lambda of line 194. *)
Inductive fn : Type :=
| User (f : arr -> option key -> res)
| Cleaned (a : attr)
| Zero
| Tempered.

(** The scenario: [get a] is the attribute [a], None when only the class's
    method marked [impl_checkable] is there; [under a] is the attribute '_a'. *)
Record scen : Type := Scen { get : attr -> option fn; under : attr -> option fn; temp : R }.
Definition set_get (s : scen) (a : attr) (f : fn) : scen :=
  Scen (fun b => if attr_eqb a b then Some f else get s b) (under s) (temp s).
Definition set_under (s : scen) (a : attr) (f : fn) : scen :=
  Scen (get s) (fun b => if attr_eqb a b then Some f else under s b) (temp s).

(** Calling a function value; [cleaned_func] has no default for the key, so a
    call without one raises a TypeError. *)
Fixpoint call (fuel : nat) (s : scen) (f : option fn) (x : arr) (k : karg) : res :=
  match fuel with
  | O => Loop
  | S fuel' =>
      match f with
      | None => Raise                       (* the class's own method *)
      | Some (User g) => g x (default k)
      | Some Zero => Val (Arr [] [0])
      | Some (Cleaned a) =>
          match k with
          | Missing => Raise
          | Given _ => bind (call fuel' s (under s a) (column (atleast_1d x)) k) (fun r => Val (squeeze r))
          end
      | Some Tempered =>
          let k' := Given (default k) in
          bind (call fuel' s (get s Prior) x k') (fun p =>
            bind (call fuel' s (get s Lik) x k') (fun l => tempered_sum (temp s) p l))
      end
  end.

(** 133-143, [clean_1d] *)
Definition clean_1d (s : scen) (a : attr) : scen :=
  match get s a with
  | None => s
  | Some f => set_get (set_under s a f) a (Cleaned a)
  end.

(** 172-194, the part of [__init__] that concerns the potentials; it runs on
    the scenario as it stands *)
Definition init (dim : nat) (s : scen) : scen :=
  match get s Pot, get s Lik with
  | None, None => s
  | _, _ =>
      let s1 := if (dim =? 1)%nat then clean_1d (clean_1d (clean_1d s Pot) Prior) Lik else s in
      let s2 := match get s1 Lik, get s1 Pot with
                | None, Some f =>
                    let s' := match get s1 Prior with None => set_get s1 Prior Zero | Some _ => s1 end in
                    set_get s' Lik f
                | _, _ => s1
                end in
      let s3 := match get s2 Prior with None => set_get s2 Prior Zero | Some _ => s2 end in
      set_get s3 Pot Tempered
  end.

(** a scenario with the user's functions, before [__init__] *)
Definition user_scen (upot uprior ulik : option (arr -> option key -> res)) (t : R) : scen :=
  Scen (fun a => option_map User (match a with Pot => upot | Prior => uprior | Lik => ulik end)) (fun _ => None) t.
