(** Model of [Scenario], mocat/src/core.py 146-261.

    Points are functions [nat -> R] of which the first [dim] coordinates
    matter; potentials take a point and a random key.  Python closures that
    look attributes up on [self] when called are modelled by re-evaluating
    them in the current state; functions captured by value ([grad(f)]) are
    stored.  Simplifications: the batching wrapper [clean_1d] used when
    [dim == 1] (lines 173-176) is the identity on single points and is
    omitted; functions assigned by the user do not themselves refer to the
    scenario; the warning on line 187 is omitted. *)
From Coq Require Import Reals List.
Import ListNotations.
Open Scope R_scope.

Definition point := nat -> R.

Section Scenario.
  Context {K : Type}.
  Definition pot := point -> K -> R.
  Definition gradfn := point -> K -> point.

  (** [jax.grad] (first argument). *)
  Variable grad : pot -> gradfn.

  (** What the attribute [potential] holds. *)
  Inductive potslot : Type :=
  | PUser (f : pot)      (* assigned by the user *)
  | PLambda.             (* line 194: lambda x: self.tempered_potential(x, self.temperature) *)

  (** An initialised scenario.  [grads] are the functions captured by
      [init_grad] for prior and likelihood; [None]: init_grad never ran. *)
  Record scen : Type := Scen {
    s_potential : potslot;
    s_prior : pot;
    s_lik : pot;
    s_temp : R;
    s_grads : option (pot * pot)
  }.

  (** lines 190-192: looks prior and likelihood up when called. *)
  Definition tempered_potential (s : scen) (x : point) (temperature : R) (k : K) : R :=
    s_prior s x k + temperature * s_lik s x k.

  (** line 194 or a user's function *)
  Definition potential (s : scen) (x : point) (k : K) : R :=
    match s_potential s with
    | PUser f => f x k
    | PLambda => tempered_potential s x (s_temp s) k
    end.

  (** lines 204-230, [init_grad]: captures the current prior and likelihood. *)
  Definition init_grad (s : scen) : scen :=
    Scen (s_potential s) (s_prior s) (s_lik s) (s_temp s) (Some (s_prior s, s_lik s)).

  (** lines 211-213 and 225-227; [None] is AttributeError. *)
  Definition grad_potential (s : scen) (x : point) (k : K) : option point :=
    match s_grads s with
    | None => None
    | Some (p, l) => Some (fun i => grad p x k i + s_temp s * grad l x k i)
    end.

  (** lines 215-223 and 228-230: value_and_grad of the captured functions. *)
  Definition potential_and_grad (s : scen) (x : point) (k : K) : option (R * point) :=
    match s_grads s with
    | None => None
    | Some (p, l) =>
        Some (p x k + s_temp s * l x k,
              fun i => grad p x k i + s_temp s * grad l x k i)
    end.

  (** lines 211-223 at any temperature. *)
  Definition grad_tempered_potential (s : scen) (x : point) (temperature : R) (k : K) : option point :=
    match s_grads s with
    | None => None
    | Some (p, l) => Some (fun i => grad p x k i + temperature * grad l x k i)
    end.

  (** Attribute assignments, lines 199-202: the value is stored, then
      [init_grad] runs for the three potentials if gradients exist already. *)
  Inductive assign : Type :=
  | SetPrior (f : pot)
  | SetLik (f : pot)
  | SetTemp (t : R)
  | SetPotential (f : pot).

  Definition refresh (s : scen) : scen :=
    match s_grads s with None => s | Some _ => init_grad s end.

  Definition setattr (s : scen) (a : assign) : scen :=
    match a with
    | SetPrior f => refresh (Scen (s_potential s) f (s_lik s) (s_temp s) (s_grads s))
    | SetLik f => refresh (Scen (s_potential s) (s_prior s) f (s_temp s) (s_grads s))
    | SetTemp t => Scen (s_potential s) (s_prior s) (s_lik s) t (s_grads s)
    | SetPotential f => refresh (Scen (PUser f) (s_prior s) (s_lik s) (s_temp s) (s_grads s))
    end.

  (** lines 161-197, [__init__] with the user's functions, [None] when not
      implemented.  The class attribute [temperature] is only annotated, so a
      keyword [temperature] is dropped by the test on line 169 and line 184
      sets it to 1 (unless a subclass defines it, [class_temp]).  The result is
      [None] when neither potential nor likelihood is implemented. *)
  Definition construct (upot uprior ulik : option pot) (class_temp kw_temp : option R)
             (do_init_grad : bool) : option scen :=
    let zero : pot := fun _ _ => 0 in
    (* lines 168-170: the keyword is used only when the class has the attribute *)
    let temp := match class_temp with
                | Some t => match kw_temp with Some t' => t' | None => t end
                | None => 1
                end in
    let finish prior lik :=
      let s := Scen PLambda prior lik temp None in
      Some (if do_init_grad then init_grad s else s) in
    match upot, ulik with
    | None, None => None
    | Some f, None =>                                  (* lines 178-181 *)
        finish (match uprior with None => zero | Some p => p end) f
    | _, Some l =>                                     (* lines 186-194 *)
        finish (match uprior with None => zero | Some p => p end) l
    end.
End Scenario.
