(** Specification for C104: derivatives of maps between column vectors, by
    epsilon and delta, independent of the model. *)
From Coq Require Import Reals.
From mathcomp Require Import ssreflect ssrfun ssrbool eqtype ssrnat seq choice fintype bigop ssralg matrix.
From Verif Require Import RStruct.
Set Implicit Arguments.
Unset Strict Implicit.
Import GRing.Theory.
Local Open Scope ring_scope.

(** sum of the absolute values of the entries *)
Definition nrm n (v : 'cV[R]_n) : R := \sum_i Rabs (v i ord0).

(** [J] is the (Frechet) derivative of [F] at [x]: the remainder of the linear
    approximation is small compared to the displacement. *)
Definition fderiv m n (F : 'cV[R]_n -> 'cV[R]_m) (x : 'cV[R]_n) (J : 'M[R]_(m, n)) : Prop :=
  forall e : R, Rlt 0 e -> exists dl : R, Rlt 0 dl /\
    forall h, Rlt (nrm h) dl -> Rle (nrm (F (x + h) - F x - J *m h)) (Rmult e (nrm h)).

(** [F] preserves volume: it has a derivative everywhere and all derivatives
    have determinant 1 or -1. *)
Definition preserves_volume n (F : 'cV[R]_n -> 'cV[R]_n) : Prop :=
  forall x, (exists J, fderiv F x J) /\ forall J, fderiv F x J -> Rabs (\det J) = 1.

(** The first [d] coordinates of an index function as a column, and back. *)
Definition ofv d (f : nat -> R) : 'cV[R]_d := \col_i f i.
Definition tov d (v : 'cV[R]_d) : nat -> R :=
  fun i => if insub i is Some o then v (o : 'I_d) ord0 else 0.
