(** Model of the tempered SMC sampler with Underdamped and Metropolis as inner
    sampler: mocat/src/transport/smc.py 61-99, 128-164, 193-225, 267-296 and
    337-365 with mocat/src/mcmc/standard_mcmc.py 72-153 (HmcModel).

    As SmcModel, except that a particle also has momenta, which are carried from
    one update to the next, and that the inner sampler overwrites the gradients.
    Simplifications as in SmcModel; the potentials read as
    [scenario.prior_potential] are the first components of
    [scenario.prior_potential_and_grad]. *)
From Coq Require Import Reals List Bool Arith.
From Verif Require Import XR Keys LoopModel LoopSpec McmcModel WeightsModel HmcModel SmcModel SmcLawModel.
Import ListNotations.
Open Scope R_scope.

(** a row of the ensemble's cdict, with the attribute [momenta] *)
Record upart : Type := UPart { u_part : part; u_mom : vec }.

Definition dupart : upart := UPart dpart (fun _ => 0).

Section SmcUd.
  Variable d : nat.
  Variable normal : key -> nat -> R.
  Variable uniform : key -> R.
  Variable prior_pg lik_pg : vec -> key -> xr * vec.
  Variable categorical : key -> list xr -> nat -> list nat.
  Variable next_temperature : ensemble -> nat -> R.
  Variable resample_threshold : R.
  Variable friction : option R.
  Variables leapfrog_steps mcmc_steps : nat.

  Definition ud_prior (v : vec) (k : key) : xr := fst (prior_pg v k).
  Definition ud_lik (v : vec) (k : key) : xr := fst (lik_pg v k).

  (** smc.py 350-358: the inner sampler's states after its startup at a value
      with momenta *)
  Definition ud_inner_states (temp step : R) (k : key) (v m : vec) (j : nat) : mstate hstate * mextra hpar :=
    iterate (ud_update d normal prior_pg lik_pg temp leapfrog_steps uniform) j
            (ud_startup prior_pg lik_pg temp v m k (HPar step friction)).

  (** smc.py 328-335: the mean of the recorded acceptance probabilities *)
  Definition ud_inner_alpha (temp step : R) (k : key) (v m : vec) : xr :=
    xdiv (xsum (map (fun j => alpha (fst (ud_inner_states temp step k v m (S j)))) (seq 0 mcmc_steps))) (INR mcmc_steps).

  (** smc.py 337-365, [forward_proposal] *)
  Definition ud_forward (temp step : R) (k : key) (q : upart) : upart :=
    let p := u_part q in
    let final := ud_inner_states temp step k (p_value p) (u_mom q) mcmc_steps in
    let s := core (fst final) in
    let pr := ud_prior (h_value s) (rkey (snd final)) in
    UPart (Part (h_value s) pr (xdiv (xsub (h_pot s) pr) temp) (h_pot s) (h_gprior s) (h_glik s) (h_gpot s)
                (ud_inner_alpha temp step k (p_value p) (u_mom q)) (p_temp p) (p_lw p) (p_ess p) (p_lnc p))
          (h_mom s).

  (** smc.py 61-71, [resample] *)
  Definition ud_resample (E : list upart) (k : key) : list upart :=
    let n := length E in
    map (fun i => let q := nth i E dupart in UPart (set_weight (Fin 0) (Fin (INR n)) (u_part q)) (u_mom q))
        (categorical k (map p_lw (map u_part E)) n).

  (** smc.py 73-99 and 219-225, [update]; [adapt] (193-217) leaves the momenta
      of the moved particles *)
  Definition ud_resampled (E : list upart) (e : sextra) : list upart :=
    if resample_criterion resample_threshold (map u_part E)
    then ud_resample E (KSplit (s_key e) (length E + 2) (length E)) else E.

  Definition ud_moved (E : list upart) (e : sextra) : list upart :=
    let n := length E in
    map (fun iq => ud_forward (p_temp (first (map u_part E))) (s_step e) (KSplit (s_key e) (n + 2) (fst iq)) (snd iq))
        (combine (seq 0 n) (ud_resampled E e)).

  Definition ud_smc_update (E : list upart) (e : sextra) : list upart * sextra :=
    let n := length E in
    let N := ud_moved E e in
    (map (fun pq => UPart (fst pq) (u_mom (snd pq)))
         (combine (adapt next_temperature (map u_part (ud_resampled E e)) (map u_part N) (S (s_iter e))) N),
     SExtra (S (s_iter e)) (KSplit (s_key e) (n + 2) (n + 1)) (resample_criterion resample_threshold (map u_part E)) (s_step e)).

  (** smc.py 128-164 (values already drawn), then 267-296: the inner sampler's
      startup evaluates potentials and gradients of every particle again, with
      one key, and sets the momenta to zero *)
  Definition ud_smc_startup (vs : list vec) (k : key) (step : R) : list upart * sextra :=
    let n := length vs in
    let E := smc_prestart ud_prior ud_lik (fun v k => snd (prior_pg v k)) (fun v k => snd (lik_pg v k)) vs k in
    let k' := KSplit k (2 * n + 1) (2 * n) in
    let t := next_temperature E 0 in
    let lw := map (fun p => xmul (Fin (- t)) (p_lik p)) E in
    (map (fun pw =>
            let p := fst pw in
            let s := fst (ud_startup prior_pg lik_pg t (p_value p) (fun _ => 0) k' (HPar step friction)) in
            let h := core s in
            UPart (Part (h_value h) (h_prior h) (h_lik h) (h_pot h) (h_gprior h) (h_glik h) (h_gpot h) (alpha s)
                        (p_temp p + t) (snd pw) (xexp (log_ess_log_weight lw)) (logmeanexp n lw))
                  (h_mom h))
         (combine E lw),
     SExtra 0 (KSplit k' 3 0) true step).

  (** smc.py 171-175 and sample.py 135-140: the run (before [clean_chain]) *)
  Definition ud_smc_run (max_iter : nat) (max_temperature : R) (init : list upart * sextra) : list (list upart) :=
    run_loop (fun E e => Rleb max_temperature (p_temp (first (map u_part E))) || (max_iter <=? s_iter e)%nat)
             ud_smc_update init max_iter.
End SmcUd.

(** sampler.py 22-33 of mocat/src/transport and sample.py 135-140: the recorded
    ensembles of a run from one key with the temperature schedule [l] *)
Definition ud_smc_sampled (prior_sample : key -> vec) (d : nat) (prior_pg lik_pg : vec -> key -> xr * vec)
  (categorical : key -> list xr -> nat -> list nat) (normal : key -> nat -> R) (uniform : key -> R)
  (friction : option R) (leapfrog_steps mcmc_steps : nat) (l : list R) (thr : R) (n : nat) (k : key) (step : R) : list (list upart) :=
  let vk := prior_values prior_sample n k in
  ud_smc_run d normal uniform prior_pg lik_pg categorical (scheduled l) thr friction leapfrog_steps mcmc_steps (length l) (last l 0)
    (ud_smc_startup prior_pg lik_pg (scheduled l) friction (fst vk) (snd vk) step).

(** smc.py 177-184, [clean_chain]: the normalising constants left on the chain *)
Definition ud_clean_lnc (chain : list (list upart)) : list xr := clean_lnc (map (map u_part) chain).
