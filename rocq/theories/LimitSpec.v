(** Limits of sequences of matrices, and draws whose sample moments tend to those
    of the standard normal law. *)
From Coq Require Import Reals.
From mathcomp Require Import ssreflect ssrfun ssrbool eqtype ssrnat seq choice fintype bigop ssralg matrix.
From Verif Require Import RStruct TekiSpec.
Set Implicit Arguments.
Unset Strict Implicit.
Import GRing.Theory.
Local Open Scope ring_scope.

(** entrywise *)
Definition tends p q (A : nat -> 'M[R]_(p, q)) (L : 'M[R]_(p, q)) : Prop :=
  forall i j, Un_cv (fun N => A N i j) (L i j).

(** A family of draws, one ensemble of [n N] rows for each index [i] and each
    [N]: means tend to 0, covariances to the identity, and covariances between
    different draws to 0.  The law of large numbers gives this with probability
    one for independent standard normal draws as [n N] tends to infinity. *)
Definition standard_limit (I : Type) (w : I -> nat) (n : nat -> nat) (Z : forall N i, 'M[R]_(n N, w i)) : Prop :=
  (forall i, tends (fun N => sample_mean (Z N i)) 0)
  /\ (forall i, tends (fun N => sample_cov (Z N i) (Z N i)) 1%:M)
  /\ (forall i j, i <> j -> tends (fun N => sample_cov (Z N i) (Z N j)) 0).
