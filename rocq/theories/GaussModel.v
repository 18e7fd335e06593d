(** Model of the Gaussian potentials: mocat/src/utils.py 25-105 and 247-262,
    ssm/linear_gaussian/linear_gaussian.py, ssm/nonlinear_gaussian.py 80-131,
    ssm/scenarios/stochastic_volatility.py 64-108, scenarios/toy_examples.py
    15-115.  Points are column vectors.  The numbers are real: the logarithm of
    a non-positive number and a Cholesky factor of a matrix that is not
    positive definite are some real where the code gives NaN, so the theorems
    assume positive definiteness wherever they are used. *)
From Coq Require Import Reals.
From mathcomp Require Import ssreflect ssrfun ssrbool eqtype ssrnat seq choice fintype bigop ssralg matrix.
From Verif Require Import XR RStruct BfgsModel LinAlg.
Set Implicit Arguments.
Unset Strict Implicit.
Import GRing.Theory.
Local Open Scope ring_scope.

Section G.
Variable d : nat.
Notation vect := 'cV[R]_d.

(** A precision (or square root) argument: number or 0-d array, 1-d array of
    length [d], or [d] x [d] array.  (A python integer raises, 1-d arrays of
    length 1 broadcasting against longer points are not modelled.) *)
Inductive par := PScalar (c : R) | PVector (v : vect) | PMatrix (M : 'M[R]_d).
(** after lines 59-63: numbers have become vectors *)
Inductive vm := VV (v : vect) | VM (M : 'M[R]_d).
Definition to_vm (p : par) : vm :=
  match p with PScalar c => VV (const_mx c) | PVector v => VV v | PMatrix M => VM M end.

(** [det_prec]: a number, or a vector (what [reset_covariance] leaves when
    given a vector). *)
Inductive detp := DScalar (c : R) | DVector (v : vect).
(** The result for one point: a number or, by broadcasting, a vector. *)
Inductive gout := GNum (c : R) | GVec (v : vect).

Definition half (x : R) : R := (x / 2).

(** 25-30 *)
Definition vectorised_potential (x m : vect) (S : 'M[R]_d) : R :=
  half (\sum_j ((x - m)^T *m S) ord0 j ^+ 2).
(** 33-38 *)
Definition mv_potential (x m : vect) (P : 'M[R]_d) : R :=
  half (((x - m)^T *m P *m (x - m)) ord0 ord0).
(** 41-46 *)
Definition diag_potential (x m v : vect) : R :=
  half (\sum_i ((x - m) i ord0) ^+ 2 * v i ord0).

(** 56-57 *)
Definition default_prec (prec sqrt_prec : option par) : option par :=
  match prec, sqrt_prec with None, None => Some (PScalar 1) | _, _ => prec end.

(** 65-69 *)
Definition default_det (det_prec : option detp) (prec sqrt_prec : option vm) : option detp :=
  match det_prec with
  | Some D => Some D
  | None =>
      match prec, sqrt_prec with
      | Some (VV v), _ => Some (DScalar (\prod_i v i ord0))
      | _, Some (VV s) => Some (DScalar ((\prod_i s i ord0) ^+ 2))
      | _, _ => None
      end
  end.

(** 71-77 *)
Definition neg_log_z1 (det : R) : R := half (INR d * ln (2 * PI) - ln det).
Definition add_neg_log_z (out : R) (D : option detp) : gout :=
  match D with
  | None => GNum out
  | Some (DScalar c) => GNum (out + neg_log_z1 c)
  | Some (DVector v) => GVec (\col_i (out + neg_log_z1 (v i ord0)))
  end.

(** 88-104: the branch for batches and for square roots *)
Definition sqrt_branch (x m : vect) (prec sqrt_prec : option vm) : R :=
  let sq := match sqrt_prec, prec with
            | None, Some (VV v) => Some (VV (\col_i sqrt (v i ord0)))
            | None, Some (VM P) => Some (VM (chol P))
            | _, _ => sqrt_prec
            end in
  match sq with
  | None => diag_potential x m (const_mx 1)
  | Some (VV s) => diag_potential x m (\col_i (s i ord0 ^+ 2))
  | Some (VM Q) => vectorised_potential x m Q
  end.

(** 79-87 *)
Definition single_branch (x m : vect) (prec : option vm) : R :=
  match prec with
  | None => diag_potential x m (const_mx 1)
  | Some (VV v) => diag_potential x m v
  | Some (VM P) => mv_potential x m P
  end.

(** 49-105 for one point; [mean] is a number or a vector *)
Definition gaussian_potential (x : vect) (mean : idiag d)
  (prec sqrt_prec : option par) (det_prec : option detp) : gout :=
  let prec := omap to_vm (default_prec prec sqrt_prec) in
  let sqrt_prec := omap to_vm sqrt_prec in
  let D := default_det det_prec prec sqrt_prec in
  let m := dvec mean in
  add_neg_log_z (match sqrt_prec with
                 | None => single_branch x m prec
                 | Some _ => sqrt_branch x m prec sqrt_prec
                 end) D.

(** 49-105 for a batch of points with a numeric [det_prec] or none *)
Definition gaussian_potential_batch (xs : seq vect) (mean : idiag d)
  (prec sqrt_prec : option par) (det_prec : option R) : seq gout :=
  let prec := omap to_vm (default_prec prec sqrt_prec) in
  let sqrt_prec := omap to_vm sqrt_prec in
  let D := default_det (omap DScalar det_prec) prec sqrt_prec in
  [seq add_neg_log_z (sqrt_branch x (dvec mean) prec sqrt_prec) D | x <- xs].

(** 247-262: what assigning a covariance leaves on the object: the square root
    of the covariance, of the precision, the determinant, and which product
    [precision_mul] is *)
Record reset := Reset { cov_sqrt : par; prec_sqrt : par; prec_det : detp }.
Definition reset_covariance (value : par) : reset :=
  match value with
  | PScalar c => Reset (PScalar (sqrt c)) (PScalar (sqrt c)^-1) (DScalar c^-1)
  | PVector v => Reset (PVector (\col_i sqrt (v i ord0))) (PVector (\col_i (sqrt (v i ord0))^-1))
                       (DVector (\col_i (v i ord0)^-1))
  | PMatrix C => Reset (PMatrix (chol C)) (PMatrix (invmx (chol C))) (DScalar (\det C)^-1)
  end.

(** linear_gaussian.py 38-44, 71-84, 118-128 and nonlinear_gaussian.py 80-84,
    98-105, 115-121: each potential is [gaussian_potential] of the point, the
    mean, the stored precision root and determinant *)
Definition model_potential (C : par) (x mean : vect) : gout :=
  gaussian_potential x (IVector mean) None (Some (prec_sqrt (reset_covariance C)))
    (Some (prec_det (reset_covariance C))).

(** linear_gaussian.py 46-51, 86-94, 130-139 and nonlinear_gaussian.py 86-90,
    123-131: [covariance_sqrt @ z + mean]; a number there raises, a vector
    gives the scalar product, added to every coordinate *)
Definition model_sample (C : par) (mean z : vect) : option vect :=
  match cov_sqrt (reset_covariance C) with
  | PScalar _ => None
  | PVector s => Some (const_mx (dot s z) + mean)
  | PMatrix L => Some (L *m z + mean)
  end.

(** nonlinear_gaussian.py 107-113: the transition sampler multiplies from the
    other side, [mean + z @ covariance_sqrt] *)
Definition nonlinear_transition_sample (C : 'M[R]_d) (mean z : vect) : vect :=
  mean + (z^T *m chol C)^T.

(** toy_examples.py 40-44: [precision_mul] is elementwise for vectors, a matrix
    product for matrices; numbers have no [.T] *)
Definition toy_potential (C : par) (x mean : vect) : option R :=
  match prec_sqrt (reset_covariance C) with
  | PScalar _ => None
  | PVector s => Some (half (\sum_i ((x - mean) i ord0 * s i ord0) ^+ 2))
  | PMatrix Q => Some (half (\sum_j ((x - mean)^T *m Q^T) ord0 j ^+ 2))
  end.

(** toy_examples.py 96-115: mixture components *)
Record component := Comp { cmean : vect; ccov : 'M[R]_d; cweight : R }.
Definition component_potential (c : component) (x : vect) : R :=
  let P := invmx (ccov c) in
  (half (\sum_j ((x - cmean c)^T *m (chol P)^T) ord0 j ^+ 2)
   - ln (cweight c * \det P / Rpower (2 * PI) (INR d * (1 / 2)))).
Definition mixture_dens (cs : seq component) (x : vect) : R :=
  \sum_(c <- cs) exp (- component_potential c x).
Definition mixture_potential (cs : seq component) (x : vect) : R := (- ln (mixture_dens cs x)).
End G.

(** stochastic_volatility.py 78-96, transition with time step [dt > 0] and a
    covariance matrix: potential and sampler *)
Definition sv_transition_potential d (F C : 'M[R]_d) (dt : R) (x x' : 'cV[R]_d) : gout d :=
  gaussian_potential x' (IVector (F *m x)) None (Some (PMatrix (sqrt dt *: invmx (chol C)))) None.
Definition sv_transition_sample d (F C : 'M[R]_d) (dt : R) (x z : 'cV[R]_d) : 'cV[R]_d :=
  F *m x + sqrt dt *: (chol C *m z).

(** stochastic_volatility.py 96-108, the likelihood, for the covariance
    argument [C] (vector, number or, by default, the identity matrix: lines
    51-53); division by a vector divides the columns of a matrix *)
Definition sv_likelihood_prec_sqrt d (C : par d) (x : 'cV[R]_d) : par d :=
  match prec_sqrt (reset_covariance C) with
  | PScalar s => PVector (\col_i (s / exp (1 / 2 * x i ord0)))
  | PVector s => PVector (\col_i (s i ord0 / exp (1 / 2 * x i ord0)))
  | PMatrix Q => PMatrix (\matrix_(i, j) (Q i j / exp (1 / 2 * x j ord0)))
  end.
Definition sv_likelihood_potential d (C : par d) (x y : 'cV[R]_d) : gout d :=
  gaussian_potential y (IScalar _ 0) None (Some (sv_likelihood_prec_sqrt C x)) None.
(** the sampler; for a matrix the result has the wrong shape: [None] *)
Definition sv_likelihood_sample d (C : par d) (x z : 'cV[R]_d) : option 'cV[R]_d :=
  match cov_sqrt (reset_covariance C) with
  | PScalar s => Some (\col_i (s * exp (1 / 2 * x i ord0) * z i ord0))
  | PVector s => Some (\col_i (s i ord0 * exp (1 / 2 * x i ord0) * z i ord0))
  | PMatrix _ => None
  end.
