(** Specification of Gaussian densities. *)
From Coq Require Import Reals.
From mathcomp Require Import ssreflect ssrfun ssrbool eqtype ssrnat seq choice fintype bigop ssralg matrix.
From Verif Require Import XR RStruct BfgsSpec GaussModel.
Set Implicit Arguments.
Unset Strict Implicit.
Import GRing.Theory.
Local Open Scope ring_scope.

(** The density at [x] of the Gaussian with mean [m] and precision [P]. *)
Definition gauss_density d (x m : 'cV[R]_d) (P : 'M[R]_d) : R :=
  sqrt (\det P) / sqrt (pow (2 * PI) d) * exp (- (bil (x - m)%R P (x - m)%R / 2)).

(** Its negative logarithm, by mean and covariance. *)
Definition nld d (x m : 'cV[R]_d) (C : 'M[R]_d) : R := (- ln (gauss_density x m (invmx C))).

(** The matrix meant by an argument. *)
Definition pmat d (p : par d) : 'M[R]_d :=
  match p with PScalar c => c%:M | PVector v => diag_mx v^T | PMatrix M => M end.

(** The determinant argument that gives the normalised density: the true one,
    or none at all when the matrix is diagonal by its type *)
Definition det_given d (p : par d) (P : 'M[R]_d) (det : option (detp d)) : Prop :=
  det = Some (DScalar _ (\det P)) \/ (det = None /\ match p with PMatrix _ => False | _ => True end).
