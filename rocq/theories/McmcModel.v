(** Model of the MCMC samplers: mocat/src/mcmc/sampler.py 32-61, 92-111,
    162-182, mocat/src/mcmc/metropolis.py, mocat/src/mcmc/standard_mcmc.py
    21-65, mocat/src/abc/mcmc.py.

    A state is the record of the attributes other than [alpha] ([St]) together
    with the recorded acceptance probability; an extra is the iteration
    counter, the random key and the remaining attributes ([P], e.g. the
    parameters).  Draws are functions of keys. *)
From Coq Require Import Reals List Bool Arith.
From Verif Require Import XR Keys LoopModel.
Import ListNotations.
Open Scope R_scope.

Record mstate (St : Type) : Type := MState { core : St; alpha : xr }.
Arguments MState {St}. Arguments core {St}. Arguments alpha {St}.

Record mextra (P : Type) : Type := MExtra { iter : nat; rkey : key; par : P }.
Arguments MExtra {P}. Arguments iter {P}. Arguments rkey {P}. Arguments par {P}.

Section Generic.
  Context {St P : Type}.
  Notation state := (mstate St).
  Notation extra := (mextra P).

  (** [random.uniform(key)] *)
  Variable uniform : key -> R.

  (** metropolis.py 55-58: the acceptance probability with NaN replaced by 0. *)
  Definition clean_alpha (a : xr) : xr := if isnan a then Fin 0 else a.

  (** metropolis.py 48-70, [Metropolis.correct]. *)
  Definition metropolis_correct
    (acceptance : state -> extra -> state -> extra -> xr)
    (rs : state) (re : extra) (ps : state) (pe : extra) : state * extra :=
    let a := clean_alpha (acceptance rs re ps pe) in
    let k := KSplit (rkey pe) 2 0 in
    let u := uniform (KSplit (rkey pe) 2 1) in
    let '(ns, ne) := if xltb (Fin u) a then (ps, pe) else (rs, re) in
    (MState (core ns) a, MExtra (iter ne) k (par ne)).

  (** sampler.py 162-171, [Uncorrected.correct]. *)
  Definition uncorrected (rs : state) (re : extra) (ps : state) (pe : extra) : state * extra :=
    (ps, pe).

  (** metropolis.py 118-136, [RMMetropolis.correct]: [adapt] changes the extra's
      parameters (and the state), [finish] copies the tuned parameter into the
      state; [cut = None] is an infinite cut-off. *)
  Definition rm_correct (cut : option nat) (adapt : state -> extra -> state * extra)
    (finish : state -> extra -> state)
    (super : state -> extra -> state -> extra -> state * extra)
    (rs : state) (re : extra) (ps : state) (pe : extra) : state * extra :=
    let '(cs, ce) := super rs re ps pe in
    let '(s', e') :=
      if match cut with None => true | Some c => (iter ce <=? c)%nat end
      then adapt cs ce else (cs, ce) in
    (finish s' e', e').

  (** sampler.py 92-111, [MCMCSampler.update]. *)
  Definition mcmc_update
    (always : state -> extra -> state * extra)
    (proposal : state -> extra -> state * extra)
    (correction : state -> extra -> state -> extra -> state * extra)
    (s : state) (e : extra) : state * extra :=
    let e := MExtra (S (iter e)) (rkey e) (par e) in
    let '(rs, re) := always s e in
    let '(ps, pe) := proposal rs re in
    (* the proposal of RandomWalk and Underdamped updates the key of
       [reject_extra] in place and returns it: [pe] is [re] with the new key *)
    correction rs re ps pe.

  (** sample.py 80-83 and sampler.py 46: max_iter = n - 1. *)
  Definition mcmc_run (update : state -> extra -> state * extra) (n : nat) (init : state * extra)
    : list state :=
    run_loop (fun _ e => (n - 1 <=? iter e)%nat) update init (n - 1).
End Generic.

(** Points are functions of the coordinate index. *)
Definition vec := nat -> R.

(** * RandomWalk, standard_mcmc.py 21-65 *)
Section RandomWalk.
  Variable normal : key -> nat -> R.          (* random.normal(key, (d,)) *)
  Variable potential : vec -> key -> xr.      (* scenario.potential(x, key) *)

  (** [rw_step]: the attribute holding the tuned stepsize, written by RMMetropolis
      only. *)
  Record rw_core : Type := RW { rw_value : vec; rw_pot : xr; rw_step : R }.

  (** standard_mcmc.py 43-59; the parameter is the stepsize.  Only the reject
      extra's key changes (it is the same object as the proposed extra). *)
  Definition rw_proposal (rs : mstate rw_core) (re : mextra R) : mstate rw_core * mextra R :=
    let k := rkey re in
    let v := fun i => rw_value (core rs) i + sqrt (par re) * normal (KSplit k 3 1) i in
    (MState (RW v (potential v (KSplit k 3 2)) (rw_step (core rs))) (alpha rs),
     MExtra (iter re) (KSplit k 3 0) (par re)).

  (** standard_mcmc.py 61-65 *)
  Definition rw_acceptance (rs : mstate rw_core) (re : mextra R)
             (ps : mstate rw_core) (pe : mextra R) : xr :=
    xmin (Fin 1) (xexp (xadd (xopp (rw_pot (core ps))) (rw_pot (core rs)))).

  (** standard_mcmc.py 31-41 (value given): the initial potential. *)
  Definition rw_startup (v : vec) (k : key) (stepsize : R) : mstate rw_core * mextra R :=
    (MState (RW v (potential v (KSplit k 2 1)) stepsize) (Fin 1), MExtra 0 (KSplit k 2 0) stepsize).

  Definition rw_update (uniform : key -> R) : mstate rw_core -> mextra R -> mstate rw_core * mextra R :=
    mcmc_update (fun s e => (s, e)) rw_proposal (metropolis_correct uniform rw_acceptance).
End RandomWalk.

(** * RandomWalkABC, mocat/src/abc/mcmc.py 26-76 *)
Section RandomWalkABC.
  Context {Data : Type}.
  Variable normal : key -> nat -> R.
  Variable prior_potential : vec -> key -> xr.
  Variable likelihood_sample : vec -> key -> Data.
  Variable distance : Data -> xr.

  Record abc_core : Type := ABC { a_value : vec; a_prior : xr; a_data : Data; a_dist : xr }.
  (** [post_mean] and [diag_post_cov] exist with RMMetropolisDiagStepsize only. *)
  Record abc_par : Type := ABCPar { threshold : xr; stepsize : nat -> R;
                                    post_mean : nat -> R; diag_post_cov : nat -> R }.

  (** abc/mcmc.py 26-31, [always]: advances the key. *)
  Definition abc_always (s : mstate abc_core) (e : mextra abc_par) : mstate abc_core * mextra abc_par :=
    (s, MExtra (iter e) (KSplit (rkey e) 2 0) (par e)).

  (** abc/mcmc.py 64-76, [proposal]; the stepsize may be a vector. *)
  Definition abc_proposal (rs : mstate abc_core) (re : mextra abc_par) : mstate abc_core * mextra abc_par :=
    let k := rkey re in
    let v := fun i => a_value (core rs) i + sqrt (stepsize (par re) i) * normal (KSplit k 4 1) i in
    let dat := likelihood_sample v (KSplit k 4 3) in
    (MState (ABC v (prior_potential v (KSplit k 4 2)) dat (distance dat)) (alpha rs),
     MExtra (iter re) (KSplit k 4 0) (par re)).

  (** abc/mcmc.py 56-62 *)
  Definition abc_acceptance (rs : mstate abc_core) (re : mextra abc_par)
             (ps : mstate abc_core) (pe : mextra abc_par) : xr :=
    xmin (Fin 1)
      (xmul (xexp (xadd (xopp (a_prior (core ps))) (a_prior (core rs))))
            (xbool (xltb (a_dist (core ps)) (threshold (par re))))).

  Definition abc_update (uniform : key -> R) : mstate abc_core -> mextra abc_par -> mstate abc_core * mextra abc_par :=
    mcmc_update abc_always abc_proposal (metropolis_correct uniform abc_acceptance).
End RandomWalkABC.

(** * Metropolis-Hastings acceptance over the reals, metropolis.py 18-31.
    [U] is the potential, [Q x y] the potential of proposing [y] from [x]. *)
Definition mh_acceptance {St : Type} (U : St -> R) (Q : St -> St -> R) (x y : St) : R :=
  Rmin 1 (exp (- U y + U x - Q y x + Q x y)).

(** * Robbins-Monro, metropolis.py 118-161 *)
(** 149-151 *)
Definition robbins_monro_update (param metric target monotonicity rm : R) : R :=
  param - rm * (metric - target) * monotonicity.

(** 153-161 *)
Definition log_robbins_monro_update (param metric target monotonicity rm : R) : R :=
  exp (robbins_monro_update (ln param) metric target monotonicity rm).

(** 144-145: the step size of iteration [iter >= 1]. *)
Definition rm_stepsize (scale neg_exponent : R) (iter : nat) : R :=
  scale * Rpower (INR iter) (- neg_exponent).

(** metropolis.py 111, [sampler.tuning.monotonicity in (1, 'increasing')]. *)
Definition monotonicity_sign (increasing : bool) : R := if increasing then 1 else -1.

(** metropolis.py 138-147, [RMMetropolis.adapt] on the tuned parameter, at the
    (already incremented) iteration [it]. *)
Definition rm_adapt_param (log_update increasing : bool) (scale neg_exponent target : R)
  (it : nat) (metric param : R) : R :=
  (if log_update then log_robbins_monro_update else robbins_monro_update)
    param metric target (monotonicity_sign increasing) (rm_stepsize scale neg_exponent it).

(** The recorded acceptance probability as a real; it is finite in all
    samplers using min(1, exp(..)) (lemma [rw_alpha_unit]). *)
Definition alpha_R {St : Type} (s : mstate St) : R :=
  match alpha s with Fin a => a | _ => 0 end.

(** RandomWalk with RMMetropolis: the tuned parameter is the stepsize, the
    metric is alpha (standard_mcmc.py 27-30, sampler.py tuning defaults:
    parameter 'stepsize', metric 'alpha', monotonicity 'decreasing'). *)
Definition rw_rm_adapt (log_update : bool) (scale neg_exponent target : R)
  (s : mstate rw_core) (e : mextra R) : mstate rw_core * mextra R :=
  (s, MExtra (iter e) (rkey e)
        (rm_adapt_param log_update false scale neg_exponent target (iter e) (alpha_R s) (par e))).

Definition rw_rm_finish (s : mstate rw_core) (e : mextra R) : mstate rw_core :=
  MState (RW (rw_value (core s)) (rw_pot (core s)) (par e)) (alpha s).

Definition rw_rm_update (normal : key -> nat -> R) (potential : vec -> key -> xr) (uniform : key -> R)
  (log_update : bool) (scale neg_exponent target : R) (cut : option nat)
  : mstate rw_core -> mextra R -> mstate rw_core * mextra R :=
  mcmc_update (fun s e => (s, e)) (rw_proposal normal potential)
    (rm_correct cut (rw_rm_adapt log_update scale neg_exponent target) rw_rm_finish
       (metropolis_correct uniform rw_acceptance)).

(** * RMMetropolisDiagStepsize, abc/mcmc.py 79-120 *)
(** 108-109: the capped step size *)
Definition diag_rm (scale neg_exponent : R) (it : nat) : R :=
  Rmin (rm_stepsize scale neg_exponent it) (1 - / 1000).

(** 101-120.  Coordinates are independent; [d] is the dimension.  Threshold
    adaptation acts on a finite threshold only (infinite thresholds are fixed
    points of the log update). *)
Definition diag_adapt {Data : Type} (d : nat) (log_update increasing : bool) (scale neg_exponent target : R)
  (s : mstate (@abc_core Data)) (e : mextra abc_par) : mstate (@abc_core Data) * mextra abc_par :=
  let p := par e in
  let thr := match threshold p with
             | Fin t => Fin (rm_adapt_param log_update increasing scale neg_exponent target (iter e) (alpha_R s) t)
             | t => t
             end in
  let rm := diag_rm scale neg_exponent (iter e) in
  let v := a_value (core s) in
  let cov := fun i => (1 - rm) * diag_post_cov p i + rm * (v i - post_mean p i) ^ 2 in
  let mean := fun i => (1 - rm) * post_mean p i + rm * v i in
  (s, MExtra (iter e) (rkey e) (ABCPar thr (fun i => cov i / INR d * 2.38 ^ 2) mean cov)).

(** abc/mcmc.py 81-99, [startup]: the adaptation's starting point. *)
Definition diag_startup_par (d : nat) (thr : xr) (stepsize0 : R) (v : vec) : abc_par :=
  ABCPar thr (fun _ => stepsize0) v (fun _ => stepsize0 * INR d / 2.38 ^ 2).

(** RandomWalkABC corrected by RMMetropolisDiagStepsize; copying the tuned
    parameters into the state is left out (no later step reads them). *)
Definition abc_diag_update {Data : Type} (normal : key -> nat -> R)
  (prior_potential : vec -> key -> xr) (likelihood_sample : vec -> key -> Data) (distance : Data -> xr)
  (uniform : key -> R) (d : nat) (log_update increasing : bool) (scale neg_exponent target : R)
  (cut : option nat)
  : mstate abc_core -> mextra abc_par -> mstate abc_core * mextra abc_par :=
  mcmc_update abc_always (abc_proposal normal prior_potential likelihood_sample distance)
    (rm_correct cut (diag_adapt d log_update increasing scale neg_exponent target) (fun s _ => s)
       (metropolis_correct uniform abc_acceptance)).

(** * Keys consumed: the keys handed to a draw or to the scenario by one update
    starting from key [k], in program order. *)
(** RandomWalk.proposal (3-way split, keys 1 and 2), then the uniform of
    Metropolis.correct. *)
Definition rw_draws (k : key) : list key :=
  [KSplit k 3 1; KSplit k 3 2; KSplit (KSplit k 3 0) 2 1].
Definition rw_next_key (k : key) : key := KSplit (KSplit k 3 0) 2 0.

(** RandomWalkABC: [always] splits the key and discards the second half. *)
Definition abc_draws (k : key) : list key :=
  let k := KSplit k 2 0 in
  [KSplit k 4 1; KSplit k 4 2; KSplit k 4 3; KSplit (KSplit k 4 0) 2 1].
Definition abc_next_key (k : key) : key := KSplit (KSplit (KSplit k 2 0) 4 0) 2 0.

Fixpoint run_draws (draws : key -> list key) (next : key -> key) (n : nat) (k : key) : list key :=
  match n with
  | O => []
  | S n' => draws k ++ run_draws draws next n' (next k)
  end.
