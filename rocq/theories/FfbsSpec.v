(** Specification of the smoothing law of a hidden Markov model and of averages
    over simulated trajectories. *)
From Coq Require Import Reals List Arith.
From Verif Require Import WeightsSpec SmcSpec FilterModel.
Import ListNotations.
Open Scope R_scope.

Section Spec.
  Context {X Tm : Type}.
  Variables (ip : X -> Tm -> R) (tp : X -> Tm -> X -> Tm -> R) (lp : X -> obs -> Tm -> R).
  Variable supp : list X.

  (** sum over the states at the later times of the product of the transition
      densities and likelihoods times [psi] of the path, which starts in [x] *)
  Fixpoint path_sum (x : X) (t : Tm) (yts : list (obs * Tm)) (psi : list X -> R) : R :=
    match yts with
    | [] => psi [x]
    | (y, t') :: r =>
        Rsum (map (fun x' => exp (- tp x t x' t') * exp (- lp x' y t') * path_sum x' t' r (fun p => psi (x :: p))) supp)
    end.
  (** unnormalised smoothing expectation *)
  Definition smoothing (y0 : obs) (t0 : Tm) (yts : list (obs * Tm)) (psi : list X -> R) : R :=
    Rsum (map (fun x => exp (- ip x t0) * exp (- lp x y0 t0) * path_sum x t0 yts psi) supp).

  (** trajectory [m] of simulated rows, one row for each time, and the average of
      [psi] over [n] trajectories *)
  Definition trajectory (dx : X) (rows : list (list X)) (m : nat) : list X := map (fun row => nth m row dx) rows.
  Definition trajectory_average (dx : X) (n : nat) (psi : list X -> R) (rows : list (list X)) : R :=
    Rsum (map (fun m => psi (trajectory dx rows m)) (seq 0 n)) / INR n.
End Spec.
