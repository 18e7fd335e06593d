(** Model of the bracketing root finder [bisect], mocat/src/utils.py 205-237.
    Numbers are reals and [fun] is total, so no evaluation is NaN. *)
From Coq Require Import Reals Bool Arith.
From Verif Require Import XR.
Open Scope R_scope.

(** The state of the [while_loop]: bounds, evaluations, iteration, lines
    233-235. *)
Record bstate : Type := BState { b0 : R; b1 : R; e0 : R; e1 : R; biter : nat }.

Section Bisect.
  Variable f : R -> R.
  Variable max_iter : nat.
  Variable tol : R.

  (** lines 213-218, [conv_check]: whether the loop continues. *)
  Definition conv_check (s : bstate) : bool :=
    negb (Rltb (Rmin (Rabs (e0 s)) (Rabs (e1 s))) tol
          || (max_iter <=? biter s)%nat
          || (Rltb (e0 s) 0 && Rltb (e1 s) 0)
          || (Rltb 0 (e0 s) && Rltb 0 (e1 s))).

  (** line 223.  Simplification: the quotient by zero has a value in R; the
      theorem says that it is never formed. *)
  Definition new_pos (s : bstate) : R := b0 s - e0 s * (b1 s - b0 s) / (e1 s - e0 s).

  (** lines 220-231, [body_func]; [increasing] is computed once, line 211. *)
  Definition body_func (increasing : bool) (s : bstate) : bstate :=
    let p := new_pos s in
    let v := f p in
    let replace_upper := if increasing then Rltb 0 v else Rltb v 0 in
    if replace_upper
    then BState (b0 s) p (e0 s) v (S (biter s))
    else BState p (b1 s) v (e1 s) (S (biter s)).

  (** [jax.lax.while_loop].  [fuel] bounds the number of iterations; [bisect]
      gives it [max_iter], which is enough because of the second disjunct of
      [conv_check] (the theorem shows the result fails [conv_check]). *)
  Fixpoint while_loop (increasing : bool) (fuel : nat) (s : bstate) : bstate :=
    match fuel with
    | O => s
    | S fuel' => if conv_check s then while_loop increasing fuel' (body_func increasing s) else s
    end.

  Definition bisect_init (lo hi : R) : bstate := BState lo hi (f lo) (f hi) 0.
  (** line 211 *)
  Definition bisect_increasing (lo hi : R) : bool := Rltb (f lo) (f hi).

  (** lines 205-237 *)
  Definition bisect (lo hi : R) : bstate :=
    while_loop (bisect_increasing lo hi) max_iter (bisect_init lo hi).
End Bisect.
