(** Model of the tempered SMC samplers, mocat/src/transport/smc.py 23-421.

    An ensemble is the list of its particles; a particle is one row of every
    attribute of the ensemble's cdict, including the attributes the code stores
    as [n] equal copies (temperature, ess, log_norm_constant).  That indexing
    the cdict by an array of indices is the gather of rows is theorem C19 on
    the cdict model.  Simplifications: values are real vectors, so the
    "more than 10 per cent NaN" stopping rule (line 175) never fires;
    the scenario has gradients and the inner sampler is one that does not touch
    the gradient attributes (RandomWalk); the parameters are the step size of
    the inner sampler only. *)
From Coq Require Import Reals List Bool Arith.
From Verif Require Import XR Keys LoopModel LoopSpec McmcModel WeightsModel BisectModel.
Import ListNotations.
Open Scope R_scope.

(** [a / t] for a real [t] *)
Definition xdiv (a : xr) (t : R) : xr :=
  match a with
  | NaN => NaN
  | Fin r => if Req_EM_T t 0
             then (if Rlt_dec 0 r then PInf else if Rlt_dec r 0 then NInf else NaN)
             else Fin (r / t)
  | PInf => if Rlt_dec t 0 then NInf else PInf
  | NInf => if Rlt_dec t 0 then PInf else NInf
  end.

Record part : Type := Part {
  p_value : vec;
  p_prior : xr; p_lik : xr; p_pot : xr;
  p_gprior : vec; p_glik : vec; p_gpot : vec;
  p_alpha : xr;
  p_temp : R; p_lw : xr; p_ess : xr; p_lnc : xr }.

Definition ensemble := list part.

Record sextra : Type := SExtra { s_iter : nat; s_key : key; s_resampled : bool; s_step : R }.

(** [x[0]] of an attribute *)
Definition dpart : part := Part (fun _ => 0) (Fin 0) (Fin 0) (Fin 0) (fun _ => 0) (fun _ => 0) (fun _ => 0) (Fin 0) 0 (Fin 0) (Fin 0) (Fin 0).
Definition first (E : ensemble) : part := hd dpart E.

Definition set_weight (lw ess : xr) (p : part) : part :=
  Part (p_value p) (p_prior p) (p_lik p) (p_pot p) (p_gprior p) (p_glik p) (p_gpot p)
       (p_alpha p) (p_temp p) lw ess (p_lnc p).

Section Smc.
  (** the scenario *)
  Variable prior lik : vec -> key -> xr.
  Variable gprior glik : vec -> key -> vec.
  (** [random.categorical(key, logits, shape=(n,))] *)
  Variable categorical : key -> list xr -> nat -> list nat.
  (** the inner MCMC sampler: startup at a value with a key and [mcmc_steps]
      updates (lines 350-360): temperature, step size, key and value to the final
      value, potential, mean acceptance and key. *)
  Variable inner : R -> R -> key -> vec -> (vec * xr * xr) * key.
  (** the sampler's attribute [next_temperature] (line 118 or 123) *)
  Variable next_temperature : ensemble -> nat -> R.
  (** parameters.ess_threshold_resample *)
  Variable resample_threshold : R.

  (** core.py 190-194: the scenario's potential at a temperature *)
  Definition tpot (t : R) (v : vec) (k : key) : xr := xadd (prior v k) (xmul (Fin t) (lik v k)).

  (** lines 61-71, [SMCSampler.resample] *)
  Definition resample (E : ensemble) (k : key) : ensemble :=
    let n := length E in
    map (fun i => set_weight (Fin 0) (Fin (INR n)) (nth i E dpart))
        (categorical k (map p_lw E) n).

  (** lines 298-302, [resample_criterion] *)
  Definition resample_criterion (E : ensemble) : bool :=
    xleb (p_ess (first E)) (Fin (resample_threshold * INR (length E))).

  (** lines 337-365, [forward_proposal]; [temp] is [scenario.temperature] *)
  Definition forward_proposal (temp step : R) (k : key) (p : part) : part :=
    let '((v, pot, al), fk) := inner temp step k (p_value p) in
    let pr := prior v fk in
    Part v pr (xdiv (xsub pot pr) temp) pot (p_gprior p) (p_glik p) (p_gpot p)
         al (p_temp p) (p_lw p) (p_ess p) (p_lnc p).

  (** lines 367-373, [log_weight] of MetropolisedSMCSampler *)
  Definition log_weight (t_prev t_new : R) (p : part) : xr := xmul (Fin (- (t_new - t_prev))) (p_lik p).

  (** lines 193-217, [TemperedSMCSampler.adapt].  [resampled] is
      [previous_ensemble_state], [new] the moved particles. *)
  Definition adapt (resampled new : ensemble) (it : nat) : ensemble :=
    let t := next_temperature new it in
    let t_prev := p_temp (first resampled) in
    let lw := map (fun pq => xadd (p_lw (fst pq)) (log_weight t_prev t (snd pq))) (combine resampled new) in
    let ess := xexp (log_ess_log_weight lw) in
    let lse_new := logsumexp lw in
    let lse_prev := logsumexp (map p_lw resampled) in
    map (fun pqw => match pqw with (p, (q, w)) =>
           Part (p_value q) (p_prior q) (p_lik q)
             (xadd (p_prior q) (xmul (Fin t) (p_lik q)))
             (p_gprior q) (p_glik q) (fun i => p_gprior q i + t * p_glik q i)
             (p_alpha q) t w ess
             (xsub (xadd (p_lnc p) lse_new) lse_prev) end)
        (combine resampled (combine new lw)).

  (** lines 73-99 and 219-225, [update] *)
  Definition resampled_ensemble (E : ensemble) (e : sextra) : ensemble :=
    if resample_criterion E then resample E (KSplit (s_key e) (length E + 2) (length E)) else E.

  Definition moved_ensemble (E : ensemble) (e : sextra) : ensemble :=
    let n := length E in
    map (fun ip => forward_proposal (p_temp (first E)) (s_step e) (KSplit (s_key e) (n + 2) (fst ip)) (snd ip))
        (combine (seq 0 n) (resampled_ensemble E e)).

  Definition smc_update (E : ensemble) (e : sextra) : ensemble * sextra :=
    let n := length E in
    (adapt (resampled_ensemble E e) (moved_ensemble E e) (S (s_iter e)),
     SExtra (S (s_iter e)) (KSplit (s_key e) (n + 2) (n + 1)) (resample_criterion E) (s_step e)).

  (** lines 128-164 (values already drawn), then 267-296: the inner sampler's
      startup evaluates the potential of every particle with one key. *)
  Definition smc_prestart (vs : list vec) (k : key) : ensemble :=
    let n := length vs in
    map (fun iv =>
           let kp := KSplit k (2 * n + 1) (fst iv) in
           let kl := KSplit k (2 * n + 1) (n + fst iv) in
           let pr := prior (snd iv) kp in
           Part (snd iv) pr (lik (snd iv) kl) pr (gprior (snd iv) kp) (glik (snd iv) kl) (gprior (snd iv) kp) (Fin 1)
             0 (Fin 0) (Fin (INR n)) (logmeanexp n (repeat (Fin 0) n)))
        (combine (seq 0 n) vs).

  Definition smc_startup (vs : list vec) (k : key) (step : R) : ensemble * sextra :=
    let n := length vs in
    let E := smc_prestart vs k in
    let k' := KSplit k (2 * n + 1) (2 * n) in
    let t := next_temperature E 0 in
    let lw := map (fun p => xmul (Fin (- t)) (p_lik p)) E in
    (map (fun pw =>
            let p := fst pw in
            Part (p_value p) (p_prior p) (p_lik p) (tpot t (p_value p) (KSplit k' 2 1))
              (p_gprior p) (p_glik p) (fun i => p_gprior p i + t * p_glik p i) (p_alpha p)
              (p_temp p + t) (snd pw) (xexp (log_ess_log_weight lw)) (logmeanexp n lw))
         (combine E lw),
     SExtra 0 (KSplit k' 2 0) true step).

  (** lines 171-175 and sample.py 135-140: the run (before [clean_chain]) *)
  Definition smc_run (max_iter : nat) (max_temperature : R) (init : ensemble * sextra) : list ensemble :=
    run_loop (fun E e => Rleb max_temperature (p_temp (first E)) || (max_iter <=? s_iter e)%nat)
             smc_update init max_iter.
End Smc.

(** lines 177-184, [clean_chain]: the recorded temperatures, normalising
    constants and effective sample sizes, and the temperature the scenario is
    left at. *)
Definition clean_temperatures (chain : list ensemble) : list R := map (fun E => p_temp (first E)) chain.
Definition clean_lnc (chain : list ensemble) : list xr := map (fun E => p_lnc (first E)) chain.
Definition clean_ess (chain : list ensemble) : list xr := map (fun E => p_ess (first E)) chain.
Definition final_scenario_temperature (chain : list ensemble) : R := last (clean_temperatures chain) 0.

(** * The inner sampler RandomWalk with Metropolis *)
(** lines 350-360: startup, [steps] updates, the last state with the mean of the
    recorded acceptance probabilities. *)
Definition rw_inner (normal : key -> nat -> R) (uniform : key -> R) (prior lik : vec -> key -> xr)
  (steps : nat) (temp step : R) (k : key) (v : vec) : (vec * xr * xr) * key :=
  let potential := tpot prior lik temp in
  let init := rw_startup potential v k step in
  let final := iterate (rw_update normal potential uniform) steps init in
  let alphas := map (fun j => alpha (fst (iterate (rw_update normal potential uniform) (S j) init))) (seq 0 steps) in
  ((rw_value (core (fst final)), rw_pot (core (fst final)),
    xdiv (xsum alphas) (INR steps)),
   rkey (snd final)).

(** * The temperature schedule attribute, lines 105-126 and 243-265 *)
Record tsampler : Type := TSampler { t_max_iter : nat; t_max_temp : R; t_schedule : option (list R) }.

(** lines 261-265: one leading zero is dropped. [None]: indexing an empty
    schedule raises. *)
Definition drop_zero (l : list R) : list R :=
  match l with
  | [] => []
  | t :: l' => if Req_EM_T t 0 then l' else l
  end.

(** lines 115-126; [None] as result is an exception (empty schedule). *)
Definition set_schedule (value : option (list R)) (s : tsampler) : option tsampler :=
  match value with
  | None =>
      Some (TSampler
        (match t_schedule s with
         | Some l => if (t_max_iter s =? length l)%nat then 10000%nat else t_max_iter s
         | None => t_max_iter s
         end) (t_max_temp s) None)
  | Some l =>
      match drop_zero l with
      | [] => None
      | t :: l' => Some (TSampler (S (length l')) (last l' t) (Some (t :: l')))
      end
  end.

(** lines 105-113 and 231-259, [__init__] *)
Definition construct_tsampler (max_iter : nat) (max_temp : R) (schedule : option (list R)) : option tsampler :=
  (* lines 243-245 drop a leading zero, then the assignment drops another one *)
  set_schedule (option_map drop_zero schedule) (TSampler max_iter max_temp None).

Inductive tassign : Type :=
| SetSchedule (v : option (list R))
| SetMaxIter (m : nat)
| SetMaxTemp (t : R).

Definition tset (s : tsampler) (a : tassign) : option tsampler :=
  match a with
  | SetSchedule v => set_schedule v s
  | SetMaxIter m => Some (TSampler m (t_max_temp s) (t_schedule s))
  | SetMaxTemp t => Some (TSampler (t_max_iter s) t (t_schedule s))
  end.

(** line 123: [self.temperature_schedule[extra.iter]]; JAX clamps an index
    beyond the end. *)
Definition scheduled (l : list R) : ensemble -> nat -> R :=
  fun _ it => nth it l (last l 0).

(** * Adaptive temperatures, lines 304-326, for finite log weights and
    likelihood potentials (the objective is then a real function). *)
Definition rval (a : xr) : R := match a with Fin r => r | _ => 0 end.

(** lines 304-309 and 318-322: the function whose root is sought *)
Definition adaptive_objective (E : ensemble) (retain : R) (x : R) : R :=
  let t := p_temp (first E) in
  rval (log_ess_log_weight
          (map (fun p => xsub (p_lw p) (xmul (Fin (x - t)) (p_lik p))) E))
  - ln (rval (p_ess (first E)) * retain).

Definition next_temperature_adaptive (retain tol : R) (max_bisection_iter : nat) (max_temperature : R)
  : ensemble -> nat -> R :=
  fun E _ =>
    let r := bisect (adaptive_objective E retain) max_bisection_iter tol (p_temp (first E)) max_temperature in
    (* line 326: argmin takes the first index on ties *)
    if Rleb (Rabs (e0 r)) (Rabs (e1 r)) then b0 r else b1 r.

(** * RMMetropolisedSMCSampler.adapt, lines 406-421 *)
Definition alpha_average (E : ensemble) : R :=
  let m := fold_right Rmax (rval (p_lw (first E))) (map (fun p => rval (p_lw p)) E) in
  let w := map (fun p => exp (rval (p_lw p) - m)) E in
  fold_right Rplus 0 (map (fun wp => fst wp * rval (p_alpha (snd wp))) (combine w E))
  / fold_right Rplus 0 w.

Definition rm_smc_step (rm target : R) (E : ensemble) (step : R) : R :=
  exp (ln step + rm * (alpha_average E - target)).
