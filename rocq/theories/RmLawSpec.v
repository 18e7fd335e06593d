(** Specification of the random walk whose stepsize is adapted to the acceptance
    probabilities: its kernel on (number of the step, stepsize, point and
    potential). *)
From Coq Require Import Reals List Arith Bool.
From Verif Require Import XR Keys McmcModel WeightsSpec UnbSpec ChainModel ChainSpec.
Import ListNotations.
Open Scope R_scope.

(** Robbins-Monro: step [i >= 1] moves the stepsize, or its logarithm, by
    [scale / i^power] times acceptance probability minus target, up to the cut-off *)
Definition adapted (log_update : bool) (scale power target : R) (cut : option nat) (i : nat) (h a : R) : R :=
  let on := match cut with None => true | Some c => Nat.leb i c end in
  let gain := scale / Rpower (INR i) power * (a - target) in
  if on then if log_update then exp (ln h + gain) else h + gain else h.

Section Spec.
  Context {W : Type}.
  Variable P : law W.
  Variable nrm : W -> nat -> R.
  Variable U : vec -> W -> xr.
  Variable next : nat -> R -> R -> R.

  Notation st := (nat * (R * (vec * xr)))%type.
  Definition proposed (h : R) (x : vec) (z : W) : vec := fun i => x i + sqrt h * nrm z i.

  Definition rm_kernel (s : st) (phi : st -> R) : R :=
    let i := S (fst s) in let h := fst (snd s) in let cur := snd (snd s) in
    mean P (fun z => mean P (fun e =>
      let x := proposed h (fst cur) z in
      let a := accept (snd cur) (U x e) in
      a * phi (i, (next i h a, (x, U x e))) + (1 - a) * phi (i, (next i h a, cur)))).

  (** states that a run can be in *)
  Inductive rm_reach (h0 : R) (first : vec -> Prop) : st -> Prop :=
  | rm_reach_first x e : first x -> rm_reach h0 first (0%nat, (h0, (x, U x e)))
  | rm_reach_kept i h s z e : rm_reach h0 first (i, (h, s)) ->
      rm_reach h0 first (S i, (next (S i) h (accept (snd s) (U (proposed h (fst s) z) e)), s))
  | rm_reach_moved i h s z e : rm_reach h0 first (i, (h, s)) ->
      let x := proposed h (fst s) z in
      rm_reach h0 first (S i, (next (S i) h (accept (snd s) (U x e)), (x, U x e))).

  (** the uniform numbers decide the acceptances of the first [n] steps with the
      right probabilities *)
  Definition rm_uniform (unif : W -> R) (h0 : R) (first : vec -> Prop) (n : nat) : Prop :=
    forall i h s z e, rm_reach h0 first (i, (h, s)) -> (i < n)%nat ->
    uniform_ok P unif (accept (snd s) (U (proposed h (fst s) z) e)).

  (** [m] more steps of the random walk with the last stepsize of [l], after [l] *)
  Definition frozen_rest (m : nat) (phi : list (R * (vec * xr)) -> R) (d : st) (l : list st) : R :=
    let h := fst (snd (last l d)) in
    chain_mean (rw_kernel P nrm U h) m (snd (snd (last l d)))
      (fun l' => phi (map snd (removelast l) ++ map (fun y => (h, y)) l')).
End Spec.

(** no step after step [i] adapts the stepsize *)
Definition adapted_all (cut : option nat) (i : nat) : Prop := match cut with None => False | Some c => (c <= i)%nat end.
