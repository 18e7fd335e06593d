(** Model of how sampler settings reach a run: mocat/src/sample.py 24-38, 46-72
    and 119-130, mocat/src/mcmc/sampler.py 49-59, mocat/src/mcmc/metropolis.py
    91-116 and mocat/src/mcmc/standard_mcmc.py 125-143.

    Attributes are association lists from names to values; a value is [None]
    (python None) or [Some v].  Simplifications: names of methods and of class
    attributes are part of the attribute list [s_attrs]; [parameters] is never
    itself given as a keyword. *)
From Coq Require Import String.
From Coq Require Import List Bool.
Import ListNotations.
Open Scope string_scope.

Section Settings.
  Context {V : Type}.
  Definition attrs := list (string * option V).

  Fixpoint get (k : string) (l : attrs) : option (option V) :=
    match l with
    | [] => None
    | (k', v) :: l' => if String.eqb k' k then Some v else get k l'
    end.

  Definition has (k : string) (l : attrs) : bool :=
    match get k l with Some _ => true | None => false end.

  (** [setattr]: replaces in place, or appends a new attribute. *)
  Fixpoint set (k : string) (v : option V) (l : attrs) : attrs :=
    match l with
    | [] => [(k, v)]
    | (k', v') :: l' => if String.eqb k' k then (k', v) :: l' else (k', v') :: set k v l'
    end.

  Record sampler : Type := Sampler { s_attrs : attrs; s_params : attrs }.

  (** sample.py 34-38, one keyword of [__init__] *)
  Definition init_kw (s : sampler) (kv : string * option V) : sampler :=
    if has (fst kv) (s_attrs s)
    then Sampler (set (fst kv) (snd kv) (s_attrs s)) (s_params s)
    else Sampler (s_attrs s) (set (fst kv) (snd kv) (s_params s)).

  Definition init_sampler (s : sampler) (kwargs : attrs) : sampler := fold_left init_kw kwargs s.

  (** sample.py 52-56, one keyword of [startup] *)
  Definition startup_kw (s : sampler) (kv : string * option V) : sampler :=
    let s1 := if has (fst kv) (s_attrs s)
              then Sampler (set (fst kv) (snd kv) (s_attrs s)) (s_params s) else s in
    if has (fst kv) (s_params s1)
    then Sampler (s_attrs s1) (set (fst kv) (snd kv) (s_params s1)) else s1.

  Definition startup_kwargs (s : sampler) (kwargs : attrs) : sampler :=
    fold_left startup_kw kwargs s.

  (** The relevant part of [initial_extra]. *)
  Record extra : Type := Extra { e_iter : option nat; e_params : option attrs }.

  (** sample.py 69-71, one parameter of the sampler *)
  Definition fill (e : attrs) (kv : string * option V) : attrs :=
    match get (fst kv) e with
    | None | Some None => set (fst kv) (snd kv) e
    | Some (Some _) => e
    end.

  (** sample.py 46-72 (max_iter check omitted: it only raises) *)
  Definition startup (s : sampler) (e : extra) (kwargs : attrs) : sampler * extra :=
    let s' := startup_kwargs s kwargs in
    let it := match e_iter e with None => Some 0 | Some i => Some i end in
    let p0 := match e_params e with None => [] | Some p => p end in
    (s', Extra it (Some (fold_left fill (s_params s') p0))).

  (** metropolis.py 100-103: the default tuning parameter of RMMetropolis. *)
  Definition rm_startup (tuning_parameter : string) (default : V) (s : sampler) (e : extra) : extra :=
    match get tuning_parameter (s_params s), e_params e with
    | Some None, Some p => Extra (e_iter e) (Some (set tuning_parameter (Some default) p))
    | _, _ => e
    end.

  (** standard_mcmc.py 129: the number of leapfrog steps is read from the
      sampler, not from the extra. *)
  Definition leapfrog_steps_used (s : sampler) (e : extra) : option (option V) :=
    get "leapfrog_steps" (s_params s).
  (** standard_mcmc.py 136: the stepsize is read from the extra. *)
  Definition stepsize_used (s : sampler) (e : extra) : option (option V) :=
    match e_params e with None => None | Some p => get "stepsize" p end.

  (** svgd.py 94 and 104-105: SVGD reads the stepsize from the sampler and deletes
      it from the extra. *)
  Definition svgd_stepsize_used (s : sampler) (e : extra) : option (option V) := get "stepsize" (s_params s).
  Definition svgd_startup_extra (e : extra) : extra :=
    Extra (e_iter e) (match e_params e with
                      | None => None
                      | Some p => Some (filter (fun kv => negb (String.eqb (fst kv) "stepsize")) p)
                      end).

  (** sample.py 110-130: [run] with a sampler instance; the startup mutates
      both the sampler and the [initial_extra] object of the caller, which is
      what the result pair denotes. *)
  Definition run_startup := startup.
End Settings.
Arguments attrs : clear implicits.
Arguments sampler : clear implicits.
Arguments extra : clear implicits.
