(** Specification: the joint density of a linear Gaussian state-space model,
    and how it factorises. *)
From Coq Require Import Reals.
From mathcomp Require Import ssreflect ssrfun ssrbool eqtype ssrnat seq choice fintype bigop ssralg matrix.
From Verif Require Import XR RStruct BfgsSpec GaussSpec.
Set Implicit Arguments.
Unset Strict Implicit.
Import GRing.Theory.
Local Open Scope ring_scope.

Section S.
Variables d e : nat.

(** A model by its mean, matrices and covariances. *)
Record lgm := LGM {
  m0 : 'cV[R]_d; C0 : 'M[R]_d;
  tF : nat -> 'M[R]_d; tQ : nat -> 'M[R]_d;
  oH : nat -> 'M[R]_(e, d); oR : nat -> 'M[R]_e }.

Definition proper (S : lgm) : Prop :=
  posdef (C0 S) /\ (forall i, posdef (tQ S i)) /\ (forall i, posdef (oR S i)).

(** minus the log of the joint density of states [x 0 .. x n] and observations
    [y 0 .. y n] *)
Definition joint (S : lgm) (n : nat) (x : nat -> 'cV[R]_d) (y : nat -> 'cV[R]_e) : R :=
  nld (x 0%N) (m0 S) (C0 S) + \sum_(i < n.+1) nld (y i) (oH S i *m x i) (oR S i)
  + \sum_(i < n) nld (x i.+1) (tF S i.+1 *m x i) (tQ S i.+1).

(** A linear Gaussian kernel: the density of the new variable given the old is
    Gaussian with mean affine in the old. *)
Record kern (p q : nat) := Kern { kA : 'M[R]_(q, p); kb : 'cV[R]_q; kC : 'M[R]_q }.
Definition kproper p q (k : kern p q) : Prop := posdef (kC k).
Definition knld p q (k : kern p q) (x : 'cV[R]_p) (z : 'cV[R]_q) : R := nld z (kA k *m x + kb k) (kC k).

(** [N(mu, P)] is the law of [x n] given [y 0 .. y n]: the joint density is a
    constant (in the states) times that density times normalised kernels which
    give [x i] from [x (i+1)] for [i < n], and so integrate to one. *)
Definition is_filtering (S : lgm) (n : nat) (y : nat -> 'cV[R]_e) (mu : 'cV[R]_d) (P : 'M[R]_d) : Prop :=
  posdef P /\
  exists (c : R) (b : nat -> kern d d),
    (forall i, kproper (b i)) /\
    forall x, joint S n x y = c + nld (x n) mu P + \sum_(0 <= i < n) knld (b i) (x i.+1) (x i).

(** [N(mu, P)] is the law of [x t] given [y 0 .. y n]: the kernels give [x i]
    from [x (i+1)] for [i < t] and [x (i+1)] from [x i] for [t <= i < n]. *)
Definition is_smoothing (S : lgm) (n t : nat) (y : nat -> 'cV[R]_e) (mu : 'cV[R]_d) (P : 'M[R]_d) : Prop :=
  posdef P /\
  exists (c : R) (b f : nat -> kern d d),
    (forall i, kproper (b i)) /\ (forall i, kproper (f i)) /\
    forall x, joint S n x y
      = c + nld (x t) mu P + \sum_(0 <= i < t) knld (b i) (x i.+1) (x i)
        + \sum_(t <= i < n) knld (f i) (x i) (x i.+1).

(** [N(mu, P)] is the law of the pair [(x t, x (t+1))] given [y 0 .. y n]. *)
Definition is_smoothing_pair (S : lgm) (n t : nat) (y : nat -> 'cV[R]_e)
    (mu : 'cV[R]_(d + d)) (P : 'M[R]_(d + d)) : Prop :=
  posdef P /\
  exists (c : R) (b f : nat -> kern d d),
    (forall i, kproper (b i)) /\ (forall i, kproper (f i)) /\
    forall x, joint S n x y
      = c + nld (col_mx (x t) (x t.+1)) mu P + \sum_(0 <= i < t) knld (b i) (x i.+1) (x i)
        + \sum_(t.+1 <= i < n) knld (f i) (x i) (x i.+1).
End S.
