(** Specification of the law of a whole Markov chain, and of Metropolis kernels
    with random-walk proposals and noisy evaluations.

    A kernel gives, for a state and a test function, the expected value of the
    test function at the next state. *)
From Coq Require Import Reals List Arith.
From Verif Require Import XR Keys McmcModel McmcSpec WeightsSpec UnbSpec ChainModel.
Import ListNotations.
Open Scope R_scope.

Section Chain.
  Context {T : Type}.
  Variable K : T -> (T -> R) -> R.

  (** expected value of [phi] of the path: [x] and the next [n] states *)
  Fixpoint chain_mean (n : nat) (x : T) (phi : list T -> R) : R :=
    match n with
    | O => phi [x]
    | S n' => K x (fun y => chain_mean n' y (fun l => phi (x :: l)))
    end.
End Chain.

(** probability of accepting a proposal with potential [p'] at potential [p]: a
    proposal of density 0 is never accepted, a chain started at density 0
    accepts any other, a chain started at NaN does not move *)
Definition accept (p p' : xr) : R :=
  match p, p' with
  | Fin a, Fin b => Rmin 1 (exp (a - b))
  | PInf, Fin _ => 1
  | _, _ => 0
  end.

(** independent draws from two laws *)
Definition pair_law {A B} (d : law A) (e : law B) : law (A * B) :=
  flat_map (fun ap => map (fun bq => ((fst ap, fst bq), snd ap * snd bq)) e) d.

Section Walk.
  Context {W E A : Type}.
  (** laws of the values used for a step and for an evaluation *)
  Variable P : law W.
  Variable Q : law E.
  (** the step made of a value; what is evaluated at a point *)
  Variable nrm : W -> nat -> R.
  Variable U : vec -> E -> A.
  (** acceptance probability; unnormalised density *)
  Variable acc : A -> A -> R.
  Variable g : A -> R.

  (** states: the point and what was evaluated when it was proposed *)
  Definition walk_kernel (sc : nat -> R) (s : vec * A) (phi : vec * A -> R) : R :=
    mean P (fun z => mean Q (fun e =>
      let x := fun i => fst s i + sc i * nrm z i in
      let a := U x e in
      acc (snd s) a * phi (x, a) + (1 - acc (snd s) a) * phi s)).

  (** sum against the density on the points [S]; with noisy evaluations, the
      expected density *)
  Definition walk_target (S : list vec) (psi : vec * A -> R) : R :=
    Rsum (map (fun x => mean Q (fun e => g (U x e) * psi (x, U x e))) S).

  (** the steps have a symmetric law *)
  Definition symmetric_steps : Prop :=
    forall f : (nat -> R) -> R, mean P (fun z => f (nrm z)) = mean P (fun z => f (fun i => - nrm z i)).
End Walk.

Section Uniform.
  Context {W : Type}.
  Variable P : law W.
  Variable unif : W -> R.

  (** [u < a] has probability [a] *)
  Definition uniform_ok (a : R) : Prop :=
    forall g : bool -> R, mean P (fun u => g (Rltb (unif u) a)) = a * g true + (1 - a) * g false.

  (** law of the initial point *)
  Definition start_mean (psamp : W -> vec) (s : start) (phi : vec -> R) : R :=
    match s with
    | Given v => phi v
    | Prior => mean P (fun x => phi (psamp x))
    | Zeros => phi (fun _ => 0)
    end.
End Uniform.

(** points where a run can start *)
Definition start_point {W} (psamp : W -> vec) (s : start) (v : vec) : Prop :=
  match s with Given x => v = x | Prior => exists u, v = psamp u | Zeros => v = fun _ => 0 end.

Section Reach.
  Context {W E A : Type}.
  Variable nrm : W -> nat -> R.
  Variable U : vec -> E -> A.
  Variable sc : nat -> R.
  Variable first : vec -> Prop.

  (** states that [t] steps can lead to from a starting point *)
  Inductive walk_reach : nat -> vec * A -> Prop :=
  | reach_first x e : first x -> walk_reach 0 (x, U x e)
  | reach_kept t s : walk_reach t s -> walk_reach (S t) s
  | reach_moved t s z e : walk_reach t s ->
      let x := fun i => fst s i + sc i * nrm z i in walk_reach (S t) (x, U x e).

  (** the uniform numbers decide the acceptances of the first [n] steps with the
      right probabilities *)
  Definition walk_uniform (P : law W) (unif : W -> R) (acc : A -> A -> R) (n : nat) : Prop :=
    forall t s z e, walk_reach t s -> (t < n)%nat ->
    uniform_ok P unif (acc (snd s) (U (fun i => fst s i + sc i * nrm z i) e)).
End Reach.

(** * The samplers *)
Definition rw_kernel {W} (P : law W) (nrm : W -> nat -> R) (U : vec -> W -> xr) (h : R) : vec * xr -> (vec * xr -> R) -> R :=
  walk_kernel P P nrm U accept (fun _ => sqrt h).

(** ABC: prior potential and simulated data *)
Definition inside {Data} (dist : Data -> xr) (thr : xr) (d : Data) : R := if xltb (dist d) thr then 1 else 0.
Definition abc_accept {Data} (dist : Data -> xr) (thr : xr) (a a' : xr * Data) : R :=
  accept (fst a) (fst a') * inside dist thr (snd a').
Definition abc_density {Data} (dist : Data -> xr) (thr : xr) (a : xr * Data) : R :=
  density (fst a) * inside dist thr (snd a).
Definition abc_eval {W Data} (pr : vec -> W -> xr) (lik : vec -> W -> Data) (x : vec) (e : W * W) : xr * Data :=
  (pr x (fst e), lik x (snd e)).
Definition abc_kernel {W Data} (P : law W) (nrm : W -> nat -> R) (pr : vec -> W -> xr) (lik : vec -> W -> Data)
  (dist : Data -> xr) (thr : xr) (h : nat -> R) : vec * (xr * Data) -> (vec * (xr * Data) -> R) -> R :=
  walk_kernel P (pair_law P P) nrm (abc_eval pr lik) (abc_accept dist thr) (fun i => sqrt (h i)).
