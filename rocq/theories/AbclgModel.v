(** Model of abc/scenarios/linear_gaussian.py, the linear Gaussian inverse
    problem as an ABC scenario.  Points are column vectors; covariances are as
    in GaussModel ([par]: number, vector or matrix). *)
From Coq Require Import Reals.
From mathcomp Require Import ssreflect ssrfun ssrbool eqtype ssrnat seq choice fintype bigop ssralg matrix.
From Verif Require Import XR RStruct BfgsModel LinAlg GaussModel.
Set Implicit Arguments.
Unset Strict Implicit.
Import GRing.Theory.
Local Open Scope ring_scope.

(** utils.py 240-244.  An argument is given by its shape: [None] for what is
    not an array, the empty list for a 0-d array. *)
Fixpoint extract_dimension (args : seq (option (seq nat))) : option nat :=
  match args with
  | [::] => None
  | Some (a :: s) :: _ => Some (last a s)
  | _ :: args' => extract_dimension args'
  end.
(** 37-40: the attribute [dim]; [None] raises *)
Definition abclg_dim (prior_mean prior_covariance likelihood_matrix likelihood_covariance : option (seq nat)) : option nat :=
  extract_dimension [:: prior_mean; prior_covariance; likelihood_matrix; likelihood_covariance].

(** 42-57: numbers become vectors or multiples of the identity *)
Definition full_vector d (a : R + 'cV[R]_d) : 'cV[R]_d := match a with inl c => const_mx c | inr v => v end.
Definition full_covariance d (C : par d) : par d := match C with PScalar c => PMatrix c%:M | _ => C end.
(** a number stands for a square matrix *)
Definition full_matrix d (a : R + 'M[R]_d) : 'M[R]_d := match a with inl c => c%:M | inr H => H end.

(** The attributes after [__init__]; assigning a covariance resets the roots
    and the determinant (61-66) *)
Record abclg d e := Abclg {
  prior_mean : 'cV[R]_d; prior_covariance : par d;
  likelihood_matrix : 'M[R]_(e, d); likelihood_covariance : par e;
  data : R + 'cV[R]_e }.

Section S.
Variables (d e : nat) (S : abclg d e).
(** [mean + covariance_sqrt @ z]: see [model_sample] of GaussModel *)
Definition sqrt_sample m (C : par m) (mean z : 'cV[R]_m) : option 'cV[R]_m :=
  match cov_sqrt (reset_covariance C) with
  | PScalar _ => None
  | PVector s => Some (mean + const_mx (dot s z))
  | PMatrix L => Some (mean + L *m z)
  end.
(** 68-70; [z] is the standard normal draw *)
Definition prior_sample (z : 'cV[R]_d) : option 'cV[R]_d := sqrt_sample (prior_covariance S) (prior_mean S) z.
(** 72-76 *)
Definition prior_potential (x : 'cV[R]_d) : gout d :=
  gaussian_potential x (IVector (prior_mean S)) None
    (Some (prec_sqrt (reset_covariance (prior_covariance S)))) (Some (prec_det (reset_covariance (prior_covariance S)))).
(** 78-81 *)
Definition likelihood_sample (x : 'cV[R]_d) (z : 'cV[R]_e) : option 'cV[R]_e :=
  sqrt_sample (likelihood_covariance S) (likelihood_matrix S *m x) z.
(** 83-87.  Data that is a number becomes an array of length one (utils.py 55):
    the difference broadcasts, the dimension in the constant is one.  This case
    is given for matrices ([None] otherwise). *)
Definition likelihood_potential (x : 'cV[R]_d) : option (gout e) :=
  match data S with
  | inr y => Some (gaussian_potential y (IVector (likelihood_matrix S *m x)) None
      (Some (prec_sqrt (reset_covariance (likelihood_covariance S)))) (Some (prec_det (reset_covariance (likelihood_covariance S)))))
  | inl c =>
      match prec_sqrt (reset_covariance (likelihood_covariance S)), prec_det (reset_covariance (likelihood_covariance S)) with
      | PMatrix Q, DScalar D =>
          Some (GNum e (vectorised_potential (const_mx c) (likelihood_matrix S *m x) Q + neg_log_z1 1 D))
      | _, _ => None
      end
  end.
End S.

(** abc.py 36-38: the distance between simulated and observed data *)
Definition distance_function e (data : R + 'cV[R]_e) (sim : 'cV[R]_e) : R :=
  sqrt (\sum_i (sim i ord0 - full_vector data i ord0) ^+ 2).
