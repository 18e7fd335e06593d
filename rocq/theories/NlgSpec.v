(** Specification for filters of nonlinear Gaussian models: conditional
    Gaussian laws, and draws from a Gaussian law. *)
From Coq Require Import Reals.
From mathcomp Require Import ssreflect ssrfun ssrbool eqtype ssrnat seq choice fintype bigop ssralg matrix.
From Verif Require Import XR RStruct BfgsSpec GaussSpec TekiSpec.
Set Implicit Arguments.
Unset Strict Implicit.
Import GRing.Theory.
Local Open Scope ring_scope.

(** The density at [x] of the Gaussian with mean [m] and covariance [C]. *)
Definition gd d (x m : 'cV[R]_d) (C : 'M[R]_d) : R := gauss_density x m (invmx C).

(** When [x ~ N(m, P)] and [y | x ~ N(H x, V)], the law of [x] given [y] is
    [N(mu, C)] and the density of [y] is [c]. *)
Definition conditional d e (m : 'cV[R]_d) (P : 'M[R]_d) (H : 'M[R]_(e, d)) (V : 'M[R]_e) (y : 'cV[R]_e)
    (mu : 'cV[R]_d) (C : 'M[R]_d) (c : R) : Prop :=
  posdef C /\ Rlt 0 c /\ forall x, Rmult (gd x m P) (gd y (H *m x) V) = Rmult c (gd x mu C).

(** [f] makes a draw from [N(mu, C)] of a standard normal draw: it is affine
    and bijective and the densities, with the Jacobian, agree. *)
Definition drawn_from d (f : 'cV[R]_d -> 'cV[R]_d) (mu : 'cV[R]_d) (C : 'M[R]_d) : Prop :=
  exists A : 'M[R]_d, A \in unitmx /\ forall z,
    f z = A *m z + mu /\ Rmult (gd (f z) mu C) (Rabs (\det A)) = gauss_density z 0 1%:M.

(** Standard normal draws, by their sample moments: mean 0, identity covariance
    and no correlation with the ensemble [A]. *)
Definition standardised n m p (A : 'M[R]_(n, m)) (Z : 'M[R]_(n, p)) : Prop :=
  sample_mean Z = 0 /\ sample_cov A Z = 0 /\ sample_cov Z Z = 1%:M.
