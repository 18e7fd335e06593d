(** Specification for ensemble Kalman inversion: sample moments by sums over
    the particles, and the Gaussian posterior of a linear model at a
    temperature. *)
From Coq Require Import Reals.
From mathcomp Require Import ssreflect ssrfun ssrbool eqtype ssrnat seq choice fintype bigop ssralg matrix.
From Verif Require Import XR RStruct BfgsSpec.
Set Implicit Arguments.
Unset Strict Implicit.
Import GRing.Theory.
Local Open Scope ring_scope.

Section Moments.
Variable n : nat.
Definition sample_mean m (A : 'M[R]_(n, m)) : 'rV[R]_m := \row_j (Rdiv (\sum_i A i j) (INR n)).
Definition deviation m (A : 'M[R]_(n, m)) (i : 'I_n) (j : 'I_m) : R := A i j - sample_mean A ord0 j.
(** unbiased sample covariance *)
Definition sample_cov m p (A : 'M[R]_(n, m)) (B : 'M[R]_(n, p)) : 'M[R]_(m, p) :=
  \matrix_(j, k) (Rdiv (\sum_i deviation A i j * deviation B i k) (INR n - 1)).

(** every particle moves by a combination of the deviations of the ensemble *)
Definition moves_in_span m (A A' : 'M[R]_(n, m)) : Prop :=
  forall i, exists c : 'I_n -> R, forall j, A' i j - A i j = \sum_k c k * deviation A k j.
End Moments.

(** The posterior of a Gaussian prior with mean [m] and covariance [C] when the
    observation of [H x + noise], with noise covariance [V], is [y] and the
    likelihood is raised to the power [t]: precision and precision times mean. *)
Definition is_tempered_posterior d e (m : 'rV[R]_d) (C : 'M[R]_d) (H : 'M[R]_(e, d)) (V : 'M[R]_e)
    (y : 'rV[R]_e) (t : R) (m' : 'rV[R]_d) (C' : 'M[R]_d) : Prop :=
  C' *m (invmx C + t *: (H^T *m invmx V *m H)) = 1%:M
  /\ (invmx C + t *: (H^T *m invmx V *m H)) *m m'^T = invmx C *m m^T + t *: (H^T *m invmx V *m y^T).

(** Simulated data that are exactly linear with noise of covariance [V], and
    standardised perturbations, by their sample moments. *)
Definition matched n d e (H : 'M[R]_(e, d)) (V : 'M[R]_e) (X : 'M[R]_(n, d)) (Y Z : 'M[R]_(n, e)) : Prop :=
  let E := Y - X *m H^T in
  sample_mean E = 0 /\ sample_cov X E = 0 /\ sample_cov E E = V
  /\ sample_mean Z = 0 /\ sample_cov X Z = 0 /\ sample_cov E Z = 0 /\ sample_cov Z Z = 1%:M.
