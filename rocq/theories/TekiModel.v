(** Model of tempered ensemble Kalman inversion, mocat/src/transport/teki.py.

    An ensemble of [n] particles is a matrix with a row for each particle.
    Exact real arithmetic, with these consequences: the inverse of a singular
    matrix and the Cholesky factor of a matrix that is not positive definite are
    some matrices, where the code gives infinities or NaN, and a temperature
    that does not change gives [alph = 0], where the code gives infinity; the
    theorems say that, or assume that, none of these arises.  So the stopping
    rule for NaN values (line 115) never fires. *)
From Coq Require Import Reals.
From mathcomp Require Import ssreflect ssrfun ssrbool eqtype ssrnat seq choice fintype bigop ssralg matrix.

From Verif Require Import XR Keys RStruct LinAlg LoopModel WeightsModel BisectModel.
Set Implicit Arguments.
Unset Strict Implicit.
Import GRing.Theory.
Local Open Scope ring_scope.

Section Teki.
Variables n dx dy : nat.

(** * Sample moments *)
(** [A.mean(0)] *)
Definition colmean m (A : 'M[R]_(n, m)) : 'rV[R]_m := (INR n)^-1 *: (const_mx 1 *m A).
(** a row added to every row *)
Definition each m (v : 'rV[R]_m) : 'M[R]_(n, m) := const_mx 1 *m v.
(** 30-31 *)
Definition sdev m (A : 'M[R]_(n, m)) : 'M[R]_(n, m) := (sqrt (INR n - 1))^-1 *: (A - each (colmean A)).
(** 33-35 *)
Definition scov m p (A : 'M[R]_(n, m)) (B : 'M[R]_(n, p)) : 'M[R]_(m, p) := (sdev A)^T *m sdev B.

(** * One update, 117-150 *)
Record tstate := TState { value : 'M[R]_(n, dx); simulated : 'M[R]_(n, dy); temperature : R }.
Record textra := TExtra { t_iter : nat; t_key : key }.

Variable lik_sample : 'rV[R]_dx -> key -> 'rV[R]_dy.   (* scenario.likelihood_sample *)
Variable normals : key -> 'M[R]_(n, dy).                (* random.normal(key, (n, d_y)) *)
Variable data : 'rV[R]_dy.                              (* scenario.data *)
Variable nugget : R.

(** 128 *)
Definition cov_y_given_x (X : 'M[R]_(n, dx)) (Y : 'M[R]_(n, dy)) : 'M[R]_dy :=
  scov Y Y - (scov X Y)^T *m invmx (scov X X + nugget%:M) *m scov X Y.

(** 129 *)
Definition y_given_x_chol X Y : 'M[R]_dy := chol (cov_y_given_x X Y + nugget%:M).

(** 130 *)
Definition prec_y_given_x X Y : 'M[R]_dy := invmx (cov_y_given_x X Y + nugget%:M).

(** 134 *)
Definition alph_of (prev new : R) : R := Rdiv 1 (new - prev).

(** 137-138 *)
Definition cov_alph (alph : R) X Y : 'M[R]_dy := scov Y Y + (alph - 1) *: cov_y_given_x X Y.
Definition teki_gain (alph : R) X Y : 'M[R]_(dx, dy) := scov X Y *m invmx (cov_alph alph X Y + nugget%:M).

(** 140-142: the square root of a negative number is NaN and the NaN are
    replaced by 0 *)
Definition perturbs (alph : R) X Y (Z : 'M[R]_(n, dy)) : 'M[R]_(n, dy) :=
  if Rleb 1 alph then sqrt (alph - 1) *: Z *m (y_given_x_chol X Y)^T else 0.

(** 144-145 *)
Definition moved (alph : R) X Y (Z : 'M[R]_(n, dy)) : 'M[R]_(n, dx) :=
  X + (each data - Y + perturbs alph X Y Z) *m (teki_gain alph X Y)^T.

(** [vmap(scenario.likelihood_sample)(value, keys)] *)
Definition simulate (X : 'M[R]_(n, dx)) (keys : nat -> key) : 'M[R]_(n, dy) :=
  \matrix_(i, j) lik_sample (row i X) (keys i) ord0 j.

(** what [next_temperature] reads: the state, [extra.iter], which is already
    incremented, and [extra.prec_y_given_x] *)
Variable next_temperature : tstate -> nat -> 'M[R]_dy -> R.

Definition update (s : tstate) (e : textra) : tstate * textra :=
  let it := (t_iter e).+1 in
  let keys := fun i => KSplit (t_key e) (n + 2) i in
  let X := value s in let Y := simulated s in
  let new := next_temperature s it (prec_y_given_x X Y) in
  let X' := moved (alph_of (temperature s) new) X Y (normals (keys n)) in
  (TState X' (simulate X' keys) new, TExtra it (keys n.+1)).

(** * startup, 69-106, from the values in the ensemble and the key then held;
    [None]: no simulated data yet, line 94 *)
Definition startup (X : 'M[R]_(n, dx)) (Y : option 'M[R]_(n, dy)) (k : key) : tstate * textra :=
  match Y with
  | None => (TState X (simulate X (fun i => KSplit k (2 * n) i)) 0, TExtra 0 (KSplit k (2 * n) (2 * n).-1))
  | Some Y => (TState X Y 0, TExtra 0 k)
  end.

(** * Termination, 108-115 *)
(** [jnp.std(A, axis=0, ddof=1)] *)
Definition column_std m (A : 'M[R]_(n, m)) (j : 'I_m) : R := sqrt (scov A A j j).
(** [scenario.constrain], or the identity, lines 80-85 *)
Variable constrain : 'M[R]_(n, dx) -> 'M[R]_(n, dx).
Variable term_std : R.
Variable prior_std : 'I_dx -> R.   (* line 100: column_std of the initial values *)

Definition terminate (max_temp : R) (max_iter : nat) (s : tstate) (e : textra) : bool :=
  Rleb max_temp (temperature s) || (max_iter <= t_iter e)%N
  || [forall j : 'I_dx, Rltb (column_std (constrain (value s)) j) (term_std * prior_std j)].

(** sample.py 135-140 *)
Definition teki_run (max_temp : R) (max_iter : nat) (init : tstate * textra) : seq tstate :=
  run_loop (terminate max_temp max_iter) update init max_iter.

(** * AdaptiveTemperedEKI.next_temperature, 171-185 *)
Variables ess_threshold bisection_tol : R.
Variable max_bisection_iter : nat.
(** 175-176 *)
Definition pseudo_potentials (Y : 'M[R]_(n, dy)) (prec : 'M[R]_dy) : seq R :=
  [seq (let v := row i (Y - each data) in Rmult (Rdiv 1 2) ((v *m prec *m v^T) ord0 ord0)) | i <- enum 'I_n].

Definition fin_part (a : xr) : R := match a with Fin r => r | _ => 0 end.

(** 177-180 *)
Definition ess_objective (s : tstate) (prec : 'M[R]_dy) (x : R) : R :=
  let l := pseudo_potentials (simulated s) prec in
  fin_part (log_ess_log_weight [seq Fin (Rmult (- (x - temperature s)) v) | v <- l])
  - ln (INR (size l) * ess_threshold).

Definition next_temperature_adaptive (max_temp : R) (s : tstate) (it : nat) (prec : 'M[R]_dy) : R :=
  let r := bisect (ess_objective s prec) max_bisection_iter bisection_tol (temperature s) max_temp in
  (* 185: argmin takes the first index on ties *)
  if Rleb (Rabs (e0 r)) (Rabs (e1 r)) then b0 r else b1 r.
End Teki.
