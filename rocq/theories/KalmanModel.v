(** Model of the Kalman filter and smoother: mocat/src/ssm/linear_gaussian/
    kalman.py, with the model's matrices as the methods of
    linear_gaussian/linear_gaussian.py give them.  Exact real arithmetic; an
    inverse of a singular matrix is some matrix ([invmx]), where the code gives
    infinities, so the theorems assume positive definite covariances.  The
    times [t] enter only through the matrices: index [i] stands for [t[i]], and
    the transition to index [i] for the pair [(t[i-1], t[i])]. *)
From Coq Require Import Reals.
From mathcomp Require Import ssreflect ssrfun ssrbool eqtype ssrnat seq choice fintype bigop ssralg matrix.
From Verif Require Import XR RStruct BfgsModel.
Set Implicit Arguments.
Unset Strict Implicit.
Import GRing.Theory.
Local Open Scope ring_scope.

Section Kalman.
Variables d e : nat.

(** linear_gaussian.py 22-110: what the filter reads from the model *)
Record lgssm := LG {
  init_mean : 'cV[R]_d;            (* get_initial_mean *)
  init_cov_sqrt : 'M[R]_d;         (* get_initial_covariance_sqrt *)
  trans_mat : nat -> 'M[R]_d;      (* get_transition_matrix(t[i-1], t[i]) *)
  trans_cov_sqrt : nat -> 'M[R]_d; (* get_transition_covariance_sqrt *)
  lik_mat : nat -> 'M[R]_(e, d);   (* get_likelihood_matrix(t[i]) *)
  lik_cov_sqrt : nat -> 'M[R]_e }. (* get_likelihood_covariance_sqrt *)

Definition marginal := ('cV[R]_d * 'M[R]_d)%type.
Variable M : lgssm.
Variable y : nat -> 'cV[R]_e.

Definition trans_cov i := trans_cov_sqrt M i *m (trans_cov_sqrt M i)^T.
Definition lik_cov i := lik_cov_sqrt M i *m (lik_cov_sqrt M i)^T.

(** kalman.py 26 and 47 *)
Definition kal_gain (i : nat) (C : 'M[R]_d) : 'M[R]_(d, e) :=
  C *m (lik_mat M i)^T *m invmx (lik_mat M i *m C *m (lik_mat M i)^T + lik_cov i).

(** 26-28 and 47-49 *)
Definition kf_update (i : nat) (pr : marginal) : marginal :=
  let: (mu, C) := pr in
  let K := kal_gain i C in
  (mu + K *m (y i - lik_mat M i *m mu), C - K *m lik_mat M i *m C).

(** 38-40 *)
Definition kf_predict (i : nat) (c : marginal) : marginal :=
  let: (mu, C) := c in
  (trans_mat M i *m mu, trans_mat M i *m C *m (trans_mat M i)^T + trans_cov i).

(** 19-20: the covariance is set to its square root *)
Definition kf_start : marginal := (init_mean M, init_cov_sqrt M).

Fixpoint kf_scan (i : nat) (c : marginal) (n : nat) : seq marginal :=
  match n with
  | 0 => [::]
  | n'.+1 => let c' := kf_update i (kf_predict i c) in c' :: kf_scan i.+1 c' n'
  end.

(** 16-57, for [len t = n.+1] *)
Definition kalman_filter (n : nat) : seq marginal :=
  let c := kf_update 0 kf_start in c :: kf_scan 1 c n.

(** * Smoother, 60-103 *)
Definition dmarg : marginal := (0, 0).
Record sm_out := SM { sm_mu : 'cV[R]_d; sm_cov : 'M[R]_d; sm_lag : 'M[R]_d }.

(** 74-80 *)
Definition back_gain (i : nat) (f : marginal) : 'M[R]_d :=
  f.2 *m (trans_mat M i.+1)^T
  *m invmx (trans_mat M i.+1 *m f.2 *m (trans_mat M i.+1)^T + trans_cov i.+1).

(** 70-86; in line 84 [f_mu_t @ mu_tplus1.T] and
    [(mu_tplus1 - f_mus[i + 1]) @ mu_tplus1.T] are products of 1-d arrays:
    numbers, added to every entry *)
Definition ks_body (f : seq marginal) (i : nat) (next : marginal) : sm_out :=
  let fi := nth dmarg f i in
  let G := back_gain i fi in
  let F := trans_mat M i.+1 in
  let mu := fi.1 + G *m (next.1 - F *m fi.1) in
  let C := fi.2 + G *m (next.2 - F *m fi.2 *m F^T - trans_cov i.+1) *m G^T in
  SM mu C (const_mx (dot fi.1 next.1)
           + G *m (next.2 + const_mx (dot (next.1 - (nth dmarg f i.+1).1) next.1))).

(** 88-94: [n] steps, the first at index [n-1], the outputs put back in
    increasing order *)
Fixpoint ks_scan (f : seq marginal) (n : nat) (next : marginal) : seq sm_out :=
  match n with
  | 0 => [::]
  | n'.+1 => let o := ks_body f n' next in rcons (ks_scan f n' (sm_mu o, sm_cov o)) o
  end.

(** 60-103, given the output [f] of the filter, of length [n.+1] *)
Definition kalman_smoother (f : seq marginal) : seq marginal * seq 'M[R]_d :=
  let n := (size f).-1 in
  let l := nth dmarg f n in
  let out := ks_scan f n l in
  (rcons [seq (sm_mu o, sm_cov o) | o <- out] l, [seq sm_lag o | o <- out]).
End Kalman.
