(** Specification of the BFGS square roots, with dense matrices: independent of
    the product form used by the code. *)
From Coq Require Import Reals.
From mathcomp Require Import ssreflect ssrfun ssrbool eqtype ssrnat seq choice fintype bigop ssralg matrix.
From Verif Require Import XR RStruct.
Set Implicit Arguments.
Unset Strict Implicit.
Import GRing.Theory.
Local Open Scope ring_scope.

(** quadratic and bilinear forms *)
Definition bil d (a : 'cV[R]_d) (M : 'M[R]_d) (b : 'cV[R]_d) : R := (a^T *m M *m b) ord0 ord0.
Definition psd d (M : 'M[R]_d) : Prop := M^T = M /\ forall z, Rle 0 (bil z M z).
Definition posdef d (M : 'M[R]_d) : Prop := M^T = M /\ forall z, z <> 0 -> Rlt 0 (bil z M z).

(** The textbook BFGS update of a dense Hessian approximation
    (Nocedal and Wright, 2nd ed., equation 6.19). *)
Definition bfgs_update d (B : 'M[R]_d) (s y : 'cV[R]_d) : 'M[R]_d :=
  B - (bil s B s)^-1 *: (B *m s *m s^T *m B) + (bil s 1%:M y)^-1 *: (y *m y^T).

(** A pair is used when its user flag is set, its curvature is positive and
    neither curvature is tiny. *)
Definition pair_used d (B : 'M[R]_d) (s y : 'cV[R]_d) (flag : bool) : Prop :=
  flag /\ Rlt 1e-10 (bil s 1%:M y) /\ Rlt 1e-10 (bil s B s).

(** The dense approximations after each pair. *)
Inductive bfgs_dense d : 'M[R]_d -> seq ('cV[R]_d * 'cV[R]_d * bool) -> 'M[R]_d -> Prop :=
| Dense0 B : bfgs_dense B [::] B
| DenseUse B s y b l B' : pair_used B s y b -> bfgs_dense (bfgs_update B s y) l B' ->
    bfgs_dense B ((s, y, b) :: l) B'
| DenseSkip B s y b l B' : ~ pair_used B s y b -> bfgs_dense B l B' ->
    bfgs_dense B ((s, y, b) :: l) B'.
