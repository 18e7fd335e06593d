(** Model of [StateSpaceModel], mocat/src/ssm/ssm.py.

    A state is a real vector, an observation and a time values of any type.
    A trajectory is the list of its states.  Potentials of one state are
    numbers: batches of trajectories are not modelled.  [None] is a raised
    exception. *)
From Coq Require Import Reals List.
From Verif Require Import Keys McmcModel HmcModel.
Import ListNotations.
Open Scope R_scope.

Definition rsum (l : list R) : R := fold_right Rplus 0 l.

Section Ssm.
  Context {Y Tm : Type}.

  (** The functions a subclass defines, lines 47-81, and their gradients. *)
  Record ssm : Type := Ssm {
    initial_potential : vec -> Tm -> R;
    transition_potential : vec -> Tm -> vec -> Tm -> R;
    likelihood_potential : vec -> Y -> Tm -> R;
    grad_initial_potential : vec -> Tm -> vec;
    grad_transition_potential : vec -> Tm -> vec -> Tm -> vec * vec;
    grad_likelihood_potential : vec -> Y -> Tm -> vec }.

  (** * The gradient attributes, 23-42 *)

  (** [jax.grad] in one argument *)
  Variable grad : (vec -> R) -> vec -> vec.

  (** A python function is called with a list of arguments; [None] is the
      [TypeError] for a wrong number of them (a wrong kind of argument is not
      distinguished from it). *)
  Inductive arg : Type := AVec (x : vec) | ATime (t : Tm) | AObs (y : Y).
  Definition call_initial (ip : vec -> Tm -> R) (l : list arg) : option R :=
    match l with [AVec x; ATime t] => Some (ip x t) | _ => None end.
  Definition call_transition (tp : vec -> Tm -> vec -> Tm -> R) (l : list arg) : option R :=
    match l with [AVec x0; ATime t0; AVec x1; ATime t1] => Some (tp x0 t0 x1 t1) | _ => None end.
  Definition call_likelihood (lp : vec -> Y -> Tm -> R) (l : list arg) : option R :=
    match l with [AVec x; AObs y; ATime t] => Some (lp x y t) | _ => None end.

  (** [jax.grad] and [jax.value_and_grad] in argument [j] of such a function;
      differentiation is total, so the error value 0 below is never seen *)
  Definition grad_arg (f : list arg -> option R) (j : nat) (l : list arg) : option vec :=
    match f l, nth_error l j with
    | Some _, Some (AVec x) =>
        Some (grad (fun v => match f (firstn j l ++ AVec v :: skipn (S j) l) with Some r => r | None => 0 end) x)
    | _, _ => None
    end.
  Definition value_and_grad (f : list arg -> option R) (js : list nat) (l : list arg) : option (R * list vec) :=
    match f l, fold_right (fun j acc => match grad_arg f j l, acc with
                                        | Some g, Some r => Some (g :: r) | _, _ => None end) (Some []) js with
    | Some r, Some g => Some (r, g)
    | _, _ => None
    end.

  (** The six slots of lines 32-42 for a subclass without gradients of its own;
      line 42 differentiates [initial_potential]. *)
  Definition slot_grad_initial (ip : vec -> Tm -> R) := grad_arg (call_initial ip) 0.
  Definition slot_initial_and_grad (ip : vec -> Tm -> R) := value_and_grad (call_initial ip) [0%nat].
  Definition slot_grad_transition (tp : vec -> Tm -> vec -> Tm -> R) (j : nat) := grad_arg (call_transition tp) j.
  Definition slot_transition_and_grad (tp : vec -> Tm -> vec -> Tm -> R) :=
    value_and_grad (call_transition tp) [0%nat; 2%nat].
  Definition slot_grad_likelihood (lp : vec -> Y -> Tm -> R) := grad_arg (call_likelihood lp) 0.
  Definition slot_likelihood_and_grad (ip : vec -> Tm -> R) (lp : vec -> Y -> Tm -> R) :=
    value_and_grad (call_initial ip) [0%nat].

  Variable M : ssm.

  (** [vmap] of the transition potential over [x[:-1], t[:-1], x[1:], t[1:]] *)
  Definition vmap_trans {A} (f : vec -> Tm -> vec -> Tm -> A) (xs : list vec) (ts : list Tm) : list A :=
    map (fun p => f (fst (fst p)) (snd (fst p)) (fst (snd p)) (snd (snd p)))
        (combine (combine (removelast xs) (removelast ts)) (combine (tl xs) (tl ts))).
  Definition vmap_lik {A} (f : vec -> Y -> Tm -> A) (xs : list vec) (ys : list Y) (ts : list Tm) : list A :=
    map (fun p => f (fst (fst p)) (snd (fst p)) (snd p)) (combine (combine xs ys) ts).

  (** 83-92 *)
  Definition smoothing_potential_ (xs : list vec) (ys : list Y) (ts : list Tm) : option R :=
    match xs, ts with
    | x0 :: _, t0 :: _ =>
        Some (initial_potential M x0 t0 + rsum (vmap_trans (transition_potential M) xs ts)
              + rsum (vmap_lik (likelihood_potential M) xs ys ts))
    | _, _ => None
    end.

  (** 94-107; in the branch for two times, [trans_pot[0]] indexes a number *)
  Definition smoothing_potential (xs : list vec) (ys : list Y) (ts : list Tm) : option R :=
    match ts with
    | [t0] => match xs, ys with
              | x0 :: _, y0 :: _ => Some (initial_potential M x0 t0 + likelihood_potential M x0 y0 t0)
              | _, _ => None
              end
    | [_; _] => None
    | _ => smoothing_potential_ xs ys ts
    end.

  (** 109-121 *)
  Definition grad_smoothing_potential_ (xs : list vec) (ys : list Y) (ts : list Tm) : option (list vec) :=
    match xs, ts with
    | x0 :: _, t0 :: _ =>
        let ig := grad_initial_potential M x0 t0 in
        let tg := vmap_trans (grad_transition_potential M) xs ts in
        let prev := map fst tg in
        let next := map snd tg in
        let lg := vmap_lik (grad_likelihood_potential M) xs ys ts in
        match prev, lg with
        | p0 :: prev', l0 :: lg' =>
            Some ([vadd (vadd ig p0) l0]
                  ++ map (fun q => vadd (vadd (fst (fst q)) (snd (fst q))) (snd q))
                         (combine (combine prev' (removelast next)) (removelast lg'))
                  ++ [vadd (last next ig) (last lg' ig)])
        | _, _ => None
        end
    | _, _ => None
    end.

  (** 123-136 *)
  Definition grad_smoothing_potential (xs : list vec) (ys : list Y) (ts : list Tm) : option (list vec) :=
    match ts with
    | [t0] => match xs, ys with
              | x0 :: _, y0 :: _ =>
                  Some [vadd (grad_initial_potential M x0 t0) (grad_likelihood_potential M x0 y0 t0)]
              | _, _ => None
              end
    | [t0; t1] =>
        match xs, ys with
        | x0 :: x1 :: _, y0 :: y1 :: _ =>
            let g := grad_transition_potential M x0 t0 x1 t1 in
            Some [vadd (vadd (grad_initial_potential M x0 t0) (fst g)) (grad_likelihood_potential M x0 y0 t0);
                  vadd (snd g) (grad_likelihood_potential M x1 y1 t1)]
        | _, _ => None
        end
    | _ => grad_smoothing_potential_ xs ys ts
    end.

  (** * Simulation, 138-163 *)
  Variable initial_sample : Tm -> key -> vec.
  Variable transition_sample : vec -> Tm -> Tm -> key -> vec.
  Variable likelihood_sample : vec -> Tm -> key -> Y.

  (** 150-156; [ts] are the times after the first, [t] the previous one *)
  Fixpoint sim_latent (x : vec) (t : Tm) (ts : list Tm) (ks : list key) : list vec :=
    match ts, ks with
    | t' :: ts', k :: ks' => let x' := transition_sample x t t' k in x' :: sim_latent x' t' ts' ks'
    | _, _ => []
    end.

  Definition simulate (ts : list Tm) (k : key) : option (list vec * list Y) :=
    let n := length ts in
    let keys := split_keys k (2 * n) 0 (2 * n) in
    match ts, firstn n keys with
    | t0 :: ts', k0 :: ks' =>
        let x0 := initial_sample t0 k0 in
        let xs := x0 :: sim_latent x0 t0 ts' ks' in
        Some (xs, map (fun p => likelihood_sample (fst (fst p)) (snd (fst p)) (snd p))
                      (combine (combine xs ts) (skipn n keys)))
    | _, _ => None
    end.
End Ssm.
Arguments ssm : clear implicits.
