(** Model of nonlinear Gaussian state-space models and their filters:
    mocat/src/ssm/nonlinear_gaussian.py 19-350 and kalman_gain, mocat/src/
    utils.py 476-484, with the run of a filter for marginals, ssm/filtering.py
    173-193 and 255-324.

    Covariances are matrices (for numbers and vectors the products [@] of
    [startup] have other shapes: not modelled).  A point is a column vector, an
    ensemble of [n] particles a matrix with a row for each particle.  Exact real
    arithmetic: the inverse of a singular matrix and the Cholesky factor of a
    matrix that is not positive definite are some matrices, where the code gives
    infinities or NaN; the theorems assume or refute definiteness.  Runs without
    an observation at the initial time (where [y - ...] raises) are not
    modelled. *)
From Coq Require Import Reals.
From mathcomp Require Import ssreflect ssrfun ssrbool eqtype ssrnat seq choice fintype bigop ssralg matrix.
From Verif Require Import XR Keys RStruct BfgsModel LinAlg WeightsModel GaussModel TekiModel.
Set Implicit Arguments.
Unset Strict Implicit.
Import GRing.Theory.
Local Open Scope ring_scope.

(** [jnp.linalg.cholesky] first takes the symmetric part (the default
    [symmetrize_input=True] of [lax.linalg.cholesky]). *)
Definition symmetrised m (A : 'M[R]_m) : 'M[R]_m := Rdiv 1 2 *: (A + A^T).
Definition jcholesky m (A : 'M[R]_m) : 'M[R]_m := chol (symmetrised A).

(** utils.py 476-484 *)
Definition kalman_gain d e p (cov_sqrt : 'M[R]_(d, p)) (lik_mat : 'M[R]_(e, d)) (lik_cov_sqrt : 'M[R]_e)
    (inv_mat : option 'M[R]_e) : 'M[R]_(d, e) :=
  let inv := match inv_mat with
             | Some W => W
             | None => invmx ((lik_mat *m cov_sqrt) *m (lik_mat *m cov_sqrt)^T + lik_cov_sqrt *m lik_cov_sqrt^T)
             end in
  cov_sqrt *m cov_sqrt^T *m lik_mat^T *m inv.

Section Nlg.
Variables d e : nat.

(** 35-78, and the attributes [..._sqrt] that [reset_covariance] leaves for
    matrices (utils.py 247-262) *)
Record nlg := Nlg {
  initial_mean : 'cV[R]_d;
  initial_covariance : 'M[R]_d;
  transition_function : 'cV[R]_d -> R -> R -> 'cV[R]_d;
  transition_covariance : 'M[R]_d;
  likelihood_matrix : 'M[R]_(e, d);
  likelihood_covariance : 'M[R]_e }.
Definition csqrt m (C : 'M[R]_m) : 'M[R]_m := chol C.
Definition psqrt m (C : 'M[R]_m) : 'M[R]_m := invmx (chol C).

Variable M : nlg.
Notation H := (likelihood_matrix M).

(** * OptimalNonLinearGaussianParticleFilter, 134-281 *)
(** 143-152: what [startup] leaves on the filter *)
Record opt := Opt {
  initial_kalman_gain : 'M[R]_(d, e);
  initial_conditioned_precision_sqrt : 'M[R]_d;
  initial_conditioned_covariance_sqrt : 'M[R]_d;
  initial_conditioned_precision_det : R;
  proposal_kalman_gain : 'M[R]_(d, e);
  proposal_precision_sqrt : 'M[R]_d;
  proposal_covariance_sqrt : 'M[R]_d;
  proposal_precision_det : R;
  weight_precision_sqrt : 'M[R]_e;
  weight_precision_det : R }.

(** 164-166 and 306-308 *)
Definition init_cond_prec : 'M[R]_d :=
  let A := H^T *m psqrt (likelihood_covariance M) in
  psqrt (initial_covariance M) *m psqrt (initial_covariance M) + A *m A^T.
(** 171-173 *)
Definition weight_precision : 'M[R]_e :=
  let A := H *m csqrt (transition_covariance M) in
  invmx (A *m A^T + csqrt (likelihood_covariance M) *m (csqrt (likelihood_covariance M))^T).

(** 154-184 *)
Definition startup : opt :=
  let W := weight_precision in
  let gain := kalman_gain (csqrt (transition_covariance M)) H (csqrt (likelihood_covariance M)) (Some W) in
  let cov := transition_covariance M - gain *m H *m transition_covariance M in
  Opt (kalman_gain (csqrt (initial_covariance M)) H (csqrt (likelihood_covariance M)) None)
      (jcholesky init_cond_prec) (invmx (jcholesky init_cond_prec)) (\det init_cond_prec)
      gain (invmx (jcholesky cov)) (jcholesky cov) (Rdiv 1 (\det cov))
      (jcholesky W) (\det W).

(** the number in a result of [gaussian_potential]: with a numeric determinant
    it always is a number *)
Definition num m (r : gout m) : R := match r with GNum c => c | GVec _ => 0 end.
Definition potential m (x mean : 'cV[R]_m) (sqrt_prec : 'M[R]_m) (det_prec : R) : R :=
  num (gaussian_potential x (IVector mean) None (Some (PMatrix sqrt_prec)) (Some (DScalar _ det_prec))).

Variable F : opt.

(** 191-193, 203-205 *)
Definition initial_conditioned_mean (y : 'cV[R]_e) : 'cV[R]_d :=
  initial_mean M + initial_kalman_gain F *m (y - H *m initial_mean M).
(** 186-196 *)
Definition opt_initial_potential (x : 'cV[R]_d) (y : 'cV[R]_e) : R :=
  potential x (initial_conditioned_mean y)
    (initial_conditioned_precision_sqrt F) (initial_conditioned_precision_det F).
(** 198-209 for one key: [z] is the standard normal draw *)
Definition opt_initial_sample (y : 'cV[R]_e) (z : 'cV[R]_d) : 'cV[R]_d :=
  initial_conditioned_mean y + (z^T *m initial_conditioned_covariance_sqrt F)^T.

(** 233-234, 246-247 *)
Definition conditioned_mean (x0 : 'cV[R]_d) (t0 : R) (y : 'cV[R]_e) (t1 : R) : 'cV[R]_d :=
  let mx := transition_function M x0 t0 t1 in
  mx + ((y^T - mx^T *m H^T) *m (proposal_kalman_gain F)^T)^T.
(** 226-237 *)
Definition opt_proposal_potential x0 t0 (x1 : 'cV[R]_d) y t1 : R :=
  potential x1 (conditioned_mean x0 t0 y t1) (proposal_precision_sqrt F) (proposal_precision_det F).
(** 239-249 *)
Definition opt_proposal_sample x0 t0 y t1 (z : 'cV[R]_d) : 'cV[R]_d :=
  conditioned_mean x0 t0 y t1 + (z^T *m (proposal_covariance_sqrt F)^T)^T.
(** 251-262; [x_new] is not used *)
Definition opt_intermediate_log_weight x0 t0 (x1 : 'cV[R]_d) (y : 'cV[R]_e) t1 : R :=
  - potential y ((transition_function M x0 t0 t1)^T *m H^T)^T (weight_precision_sqrt F) (weight_precision_det F).

(** * Ensembles *)
Variable n : nat.
(** [random.normal(key, (n, d))] and [random.normal(key, (n, dim_obs))] *)
Variable normals_x : key -> 'M[R]_(n, d).
Variable normals_y : key -> 'M[R]_(n, e).

(** 218-224 with 206-209 for several keys, which only uses the first *)
Definition opt_initial_vectorised (y : 'cV[R]_e) (keys : nat -> key) : 'M[R]_(n, d) * seq xr :=
  (each n (initial_conditioned_mean y)^T + normals_x (keys 0%N) *m initial_conditioned_covariance_sqrt F,
   nseq n (Fin 0)).

(** [vmap(ssm_scenario.transition_function, (0, None, None))] *)
Definition propagated (X : 'M[R]_(n, d)) (t0 t1 : R) : 'M[R]_(n, d) :=
  \matrix_(i, j) transition_function M (row i X)^T t0 t1 j ord0.

(** 264-281; the mean of the potential in 277-280 is an array with a row for
    each particle, so the result is an array of numbers *)
Definition opt_propose_vectorised (X : 'M[R]_(n, d)) (t0 : R) (y : 'cV[R]_e) (t1 : R) (keys : nat -> key)
    : 'M[R]_(n, d) * seq xr :=
  let mx := propagated X t0 t1 in
  let cond := mx + (each n y^T - mx *m H^T) *m (proposal_kalman_gain F)^T in
  (cond + normals_x (keys 0%N) *m (proposal_covariance_sqrt F)^T,
   [seq Fin (- potential y (row i (mx *m H^T))^T (weight_precision_sqrt F) (weight_precision_det F)) | i <- enum 'I_n]).

(** * EnsembleKalmanFilter, 284-350 *)
(** 297-323: [startup] keeps the gain and the covariance root of line 168 *)
Definition enkf_initial (y : 'cV[R]_e) (keys : nat -> key) : 'M[R]_(n, d) * seq xr :=
  let gain := kalman_gain (csqrt (initial_covariance M)) H (csqrt (likelihood_covariance M)) None in
  let mean := initial_mean M + gain *m (y - H *m initial_mean M) in
  (each n mean^T + normals_x (keys 0%N) *m invmx (jcholesky init_cond_prec), nseq n (Fin 0)).

(** 336-337 *)
Definition enkf_forecast (X : 'M[R]_(n, d)) (t0 t1 : R) (k : key) : 'M[R]_(n, d) :=
  propagated X t0 t1 + normals_x k *m (csqrt (transition_covariance M))^T.
(** 339 *)
Definition spread_matrix (mx : 'M[R]_(n, d)) : 'M[R]_(d, n) :=
  (sqrt (INR n - 1))^-1 *: (mx - each n (colmean mx))^T.
(** 341-343 *)
Definition enkf_gain (mx : 'M[R]_(n, d)) : 'M[R]_(d, e) :=
  kalman_gain (spread_matrix mx) H (csqrt (likelihood_covariance M)) None.
(** 345-348 *)
Definition enkf_analysis (mx : 'M[R]_(n, d)) (y : 'cV[R]_e) (k : key) : 'M[R]_(n, d) :=
  let y_prop := mx *m H^T + normals_y k *m (csqrt (likelihood_covariance M))^T in
  mx + (each n y^T - y_prop) *m (enkf_gain mx)^T.
(** 325-350 *)
Definition enkf_propose (X : 'M[R]_(n, d)) (t0 : R) (y : 'cV[R]_e) (t1 : R) (keys : nat -> key)
    : 'M[R]_(n, d) * seq xr :=
  let split i := KSplit (keys 0%N) 2 i in
  (enkf_analysis (enkf_forecast X t0 t1 (split 0%N)) y (split 1%N), nseq n (Fin 0)).
End Nlg.

(** * A run for marginals, filtering.py 255-324 with 173-193, of a filter given
    by its two vectorised methods *)
Section Run.
Variables (d e n : nat).
Variable initial : 'cV[R]_e -> (nat -> key) -> 'M[R]_(n, d) * seq xr.
Variable propose : 'M[R]_(n, d) -> R -> 'cV[R]_e -> R -> (nat -> key) -> 'M[R]_(n, d) * seq xr.
(** [random.categorical(key, log_weight, shape=(n,))] *)
Variable categorical : key -> seq xr -> 'I_n -> 'I_n.
Variable thr : R.

Record prow := PRow { pvalue : 'M[R]_(n, d); plog_weight : seq xr; pt : R; pess : xr }.

(** 173-193 *)
Definition initiate (k : key) (y : 'cV[R]_e) (t : R) : prow :=
  let: (x, lw) := initial y (fun i => KSplit k n i) in
  PRow x lw t (ess_log_weight lw).

(** 280-311 *)
Definition pf_body (s : prow) (y : 'cV[R]_e) (t : R) (k : key) : prow :=
  let rs := xltb (pess s) (Fin (Rmult thr (INR n))) in
  let x := if rs then \matrix_(i, j) pvalue s (categorical k (plog_weight s) i) j else pvalue s in
  let lw := if rs then nseq n (Fin 0) else plog_weight s in
  let: (x', w) := propose x (pt s) y t (fun i => KSplit k n i) in
  let lw' := [seq xadd ab.1 ab.2 | ab <- zip lw w] in
  PRow x' lw' t (ess_log_weight lw').

(** 277-278 and 313-315: [m] further observations, step [i] uses
    [int_rand_keys[i]] *)
Fixpoint pf_scan (k : key) (m i : nat) (s : prow) (ys : seq ('cV[R]_e * R)) : seq prow :=
  match ys with
  | [::] => [::]
  | (y, t) :: r => let s' := pf_body s y t (KSplit k m i) in s' :: pf_scan k m i.+1 s' r
  end.

(** 255-324 without an initial sample: the key is split in two (267) *)
Definition pf_run (k : key) (y0 : 'cV[R]_e) (t0 : R) (ys : seq ('cV[R]_e * R)) : seq prow :=
  let s0 := initiate (KSplit k 2 1) y0 t0 in
  s0 :: pf_scan (KSplit k 2 0) (size ys) 0 s0 ys.
End Run.
