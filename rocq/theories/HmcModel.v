(** Model of the leapfrog integrators and of the underdamped samplers:
    mocat/src/utils.py 108-156, mocat/src/mcmc/standard_mcmc.py 72-153,
    mocat/src/mcmc/qn_underdamped.py. *)
From Coq Require Import Reals List Bool Arith.
From Verif Require Import XR Keys LoopModel McmcModel.
Import ListNotations.
Open Scope R_scope.

Definition vadd (a b : vec) : vec := fun i => a i + b i.
Definition vopp (a : vec) : vec := fun i => - a i.
Definition vscale (c : R) (a : vec) : vec := fun i => c * a i.
Fixpoint vdot (d : nat) (a b : vec) : R :=
  match d with O => 0 | S d' => vdot d' a b + a d' * b d' end.

(** The attributes of an underdamped state. *)
Record hstate : Type := HS {
  h_value : vec; h_mom : vec;
  h_prior : xr; h_gprior : vec; h_lik : xr; h_glik : vec;
  h_pot : xr; h_gpot : vec }.

Section Leapfrog.
  (** scenario.prior_potential_and_grad, scenario.likelihood_potential_and_grad *)
  Variable prior_pg : vec -> key -> xr * vec.
  Variable lik_pg : vec -> key -> xr * vec.
  Variable temperature : R.
  (** The map from momenta to velocities: the identity in utils.py 121,
      [bfgs_sqrt_prod . bfgs_sqrt_transpose_prod] in qn_underdamped.py 242-245. *)
  Variable minv : vec -> vec.
  Variable stepsize : R.

  (** Filling in the potentials at a value: utils.py 125-132. *)
  Definition at_value (v m : vec) (k : key) : hstate :=
    let '(pp, gp) := prior_pg v k in
    let '(lp, gl) := lik_pg v k in
    HS v m pp gp lp gl
       (xadd pp (xmul (Fin temperature) lp))
       (vadd gp (vscale temperature gl)).

  (** utils.py 117-138, [leapfrog_step] (and qn_underdamped.py 238-261): the
      new state, and the two momenta recorded for it. *)
  Definition leapfrog_step (s : hstate) (k : key) : hstate * (hstate * list vec) :=
    let p_half := vadd (h_mom s) (vscale (- (stepsize / 2)) (h_gpot s)) in
    let v := vadd (h_value s) (vscale stepsize (minv p_half)) in
    let n := at_value v p_half k in
    let m := vadd p_half (vscale (- (stepsize / 2)) (h_gpot n)) in
    let n := HS (h_value n) m (h_prior n) (h_gprior n) (h_lik n) (h_glik n) (h_pot n) (h_gpot n) in
    (n, (n, [p_half; m])).

  (** utils.py 140-146: the states (start first) and, separately, the
      concatenated momenta (start first). *)
  Definition leapfrog (s : hstate) (keys : list key) : list hstate * list vec :=
    let stack := snd (scan leapfrog_step s keys) in
    (s :: map fst stack, h_mom s :: concat (map snd stack)).

  (** [all_leapfrog[-1]]: every attribute's last entry. *)
  Definition leapfrog_last (s : hstate) (keys : list key) : hstate :=
    let '(ss, ms) := leapfrog s keys in
    let l := last ss s in
    HS (h_value l) (last ms (h_mom s)) (h_prior l) (h_gprior l) (h_lik l) (h_glik l) (h_pot l) (h_gpot l).

  Definition flip (s : hstate) : hstate :=
    HS (h_value s) (vopp (h_mom s)) (h_prior s) (h_gprior s) (h_lik s) (h_glik s) (h_pot s) (h_gpot s).
End Leapfrog.

(** * Underdamped, standard_mcmc.py 72-153 *)
Record hpar : Type := HPar { h_stepsize : R; h_friction : option R (* None: infinite *) }.

(** 121-122: exp(-friction*stepsize) and exp(-2*friction*stepsize); an infinite
    friction (with positive stepsize) gives 0. *)
Definition ou_decay (p : hpar) : R :=
  match h_friction p with None => 0 | Some g => exp (- g * h_stepsize p) end.
Definition ou_decay2 (p : hpar) : R :=
  match h_friction p with None => 0 | Some g => exp (- 2 * g * h_stepsize p) end.

Definition set_mom (s : hstate) (m : vec) : hstate :=
  HS (h_value s) m (h_prior s) (h_gprior s) (h_lik s) (h_glik s) (h_pot s) (h_gpot s).

(** the [n] keys of [random.split(k, n)] from index [i] *)
Definition split_keys (k : key) (n i len : nat) : list key := map (fun j => KSplit k n j) (seq i len).

Section Underdamped.
  Variable d : nat.
  Variable normal : key -> nat -> R.
  Variable prior_pg : vec -> key -> xr * vec.
  Variable lik_pg : vec -> key -> xr * vec.
  Variable temperature : R.
  Variable leapfrog_steps : nat.   (* self.parameters.leapfrog_steps *)

  (** standard_mcmc.py 86-105, [startup] after the parent's. *)
  Definition ud_startup (v m : vec) (k : key) (p : hpar) : mstate hstate * mextra hpar :=
    (MState (at_value prior_pg lik_pg temperature v m (KSplit k 3 1)) (Fin 1),
     MExtra 0 (KSplit k 3 0) p).

  (** 107-123, [always]. *)
  Definition ud_always (s : mstate hstate) (e : mextra hpar) : mstate hstate * mextra hpar :=
    let m := vopp (h_mom (core s)) in
    let m := vadd (vscale (ou_decay (par e)) m)
                  (vscale (sqrt (1 - ou_decay2 (par e))) (normal (KSplit (rkey e) 2 1))) in
    (MState (set_mom (core s) m) (alpha s), MExtra (iter e) (KSplit (rkey e) 2 0) (par e)).

  (** 125-143, [proposal]. *)
  Definition ud_proposal (s : mstate hstate) (e : mextra hpar) : mstate hstate * mextra hpar :=
    let n := S leapfrog_steps in
    let l := leapfrog_last prior_pg lik_pg temperature (fun p => p) (h_stepsize (par e))
               (core s) (split_keys (rkey e) n 1 leapfrog_steps) in
    (MState (flip l) (alpha s), MExtra (iter e) (KSplit (rkey e) n 0) (par e)).

  (** utils.gaussian_potential(momenta), utils.py 25-105 with default mean and
      precision: half the square norm plus the constant (d log 2pi)/2. *)
  Definition kinetic (m : vec) : R := vdot d m m / 2 + INR d * ln (2 * PI) / 2.

  (** 145-153, [acceptance_probability]. *)
  Definition ud_acceptance (rs : mstate hstate) (re : mextra hpar)
             (ps : mstate hstate) (pe : mextra hpar) : xr :=
    xmin (Fin 1)
      (xexp (xadd (xsub (xadd (xopp (h_pot (core ps))) (h_pot (core rs)))
                        (Fin (kinetic (h_mom (core ps)))))
                  (Fin (kinetic (h_mom (core rs)))))).

  Definition ud_update (uniform : key -> R) : mstate hstate -> mextra hpar -> mstate hstate * mextra hpar :=
    mcmc_update ud_always ud_proposal (metropolis_correct uniform ud_acceptance).
End Underdamped.

(** * Quasi-Newton *)
(** utils.py 375-408 over real vectors: [init_diag] is a scalar. *)
Definition bfgs_prod (d : nat) (pqs : list (vec * vec)) (diag : R) (z : vec) : vec :=
  fold_left (fun c pq => vadd c (vscale (- vdot d (snd pq) c) (fst pq))) pqs (vscale diag z).
Definition bfgs_tprod (d : nat) (pqs : list (vec * vec)) (diag : R) (z : vec) : vec :=
  vscale diag (fold_left (fun c pq => vadd c (vscale (- vdot d (fst pq) c) (snd pq))) (rev pqs) z).

(** One row of the memory arrays (qn_underdamped.py 79-83): position, prior and
    likelihood potentials and gradients.  The five arrays are always appended
    together, so they are modelled as one list of rows. *)
Record mrow : Type := MRow { m_value : vec; m_prior : xr; m_gprior : vec; m_lik : xr; m_glik : vec }.

Record qpar : Type := QPar { q_hpar : hpar; q_max_val : R }.
Record qstate : Type := QS { q_core : hstate; q_mem : list mrow }.

Definition row_of (s : hstate) : mrow := MRow (h_value s) (h_prior s) (h_gprior s) (h_lik s) (h_glik s).

(** qn_underdamped.py 106-120, [update_memory], array part. *)
Definition push_memory (mem : list mrow) (r : mrow) : list mrow := tl mem ++ [r].

Section QN.
  Variable d : nat.
  Variable normal : key -> nat -> R.
  Variable prior_pg : vec -> key -> xr * vec.
  Variable lik_pg : vec -> key -> xr * vec.
  Variable temperature : R.
  Variable leapfrog_steps : nat.
  (** [bfgs_sqrt_pqut] of the memory: the (p,q) and the (u,t) pairs,
      qn_underdamped.py 123-133; its properties are the BFGS group's. *)
  Variable pqs uts : list mrow -> list (vec * vec).
  (** memory.init_hessian_sqrt_diag *)
  Variable diag : R.

  (** 135-166, [always]. *)
  Definition qn_always (s : mstate qstate) (e : mextra qpar) : mstate qstate * mextra qpar :=
    let mem := push_memory (q_mem (core s)) (row_of (q_core (core s))) in
    let h := q_core (core s) in
    let z := bfgs_prod d (uts mem) diag (normal (KSplit (rkey e) 2 0)) in
    let m := vadd (vscale (ou_decay (q_hpar (par e))) (vopp (h_mom h)))
                  (vscale (sqrt (1 - ou_decay2 (q_hpar (par e)))) z) in
    (MState (QS (set_mom h m) mem) (alpha s), MExtra (iter e) (KSplit (rkey e) 2 1) (par e)).

  Definition qn_minv (mem : list mrow) (p : vec) : vec :=
    bfgs_prod d (pqs mem) (/ diag) (bfgs_tprod d (pqs mem) (/ diag) p).

  (** 168-199, [proposal]: the memory is that of the current state throughout. *)
  Definition qn_proposal (s : mstate qstate) (e : mextra qpar) : mstate qstate * mextra qpar :=
    let n := S leapfrog_steps in
    let l := leapfrog_last prior_pg lik_pg temperature (qn_minv (q_mem (core s)))
               (h_stepsize (q_hpar (par e))) (q_core (core s)) (split_keys (rkey e) n 0 leapfrog_steps) in
    (MState (QS (flip l) (q_mem (core s))) (alpha s),
     MExtra (iter e) (KSplit (rkey e) n leapfrog_steps) (par e)).

  (** 201-223, [acceptance_probability]. *)
  Definition qn_kinetic (mem : list mrow) (m : vec) : R :=
    let z := bfgs_tprod d (pqs mem) (/ diag) m in vdot d z z / 2.

  Fixpoint any_upto (n : nat) (f : nat -> bool) : bool :=
    match n with O => false | S n' => any_upto n' f || f n' end.

  Definition qn_acceptance (rs : mstate qstate) (re : mextra qpar)
             (ps : mstate qstate) (pe : mextra qpar) : xr :=
    let big v := any_upto d (fun i => Rltb (q_max_val (par re)) (Rabs (v i))) in
    if big (h_value (q_core (core ps))) || big (h_mom (q_core (core ps)))
    then Fin 0
    else
    xmin (Fin 1)
      (xexp (xadd (xsub (xadd (xopp (h_pot (q_core (core ps)))) (h_pot (q_core (core rs))))
                        (Fin (qn_kinetic (q_mem (core rs)) (h_mom (q_core (core ps))))))
                  (Fin (qn_kinetic (q_mem (core rs)) (h_mom (q_core (core rs))))))).

  Definition qn_update (uniform : key -> R) : mstate qstate -> mextra qpar -> mstate qstate * mextra qpar :=
    mcmc_update qn_always qn_proposal (metropolis_correct uniform qn_acceptance).
End QN.
