(** The vector fields of mocat/src/ssm/scenarios/lorenz96.py and lorenz63.py.
    The numerical integrator ([odeint], 22-28 and 24-30) is not modelled: the
    theorems on trajectories are about exact solutions of the coded equations. *)
From Coq Require Import Reals ZArith.
From Verif Require Import McmcModel.
Open Scope R_scope.

(** lorenz96.py 14-19: position [i + s] modulo the dimension; Python's [%] is
    non-negative, as [Z.modulo] for a positive divisor. *)
Definition wrap (d : nat) (i : nat) (s : Z) : nat := Z.to_nat ((Z.of_nat i + s) mod Z.of_nat d).

(** lorenz96.py 14-19; [t] is not used by the code. *)
Definition lorenz96_dynamics (d : nat) (forcing : R) (x : vec) : vec :=
  fun i => (x (wrap d i 1) - x (wrap d i (-2))) * x (wrap d i (-1)) - x i + forcing.

(** lorenz63.py 14-21; three components. *)
Definition lorenz63_dynamics (sigma rho beta : R) (x : vec) : vec :=
  fun i => match i with
           | 0%nat => sigma * (x 1%nat - x 0%nat)
           | 1%nat => x 0%nat * (rho - x 2%nat) - x 1%nat
           | _ => x 0%nat * x 1%nat - beta * x 2%nat
           end.
