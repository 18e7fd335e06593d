(** Model of rejection ABC (mocat/src/abc/importance.py, abc.py 43-63) and of the
    Metropolised ABC-SMC sampler (mocat/src/abc/smc.py, on top of
    transport/smc.py 23-99).

    Simplifications: simulated data are an abstract type; distances and
    thresholds are extended reals; the prior potential is implemented; an
    ensemble is the list of its particles (as in SmcModel). *)
From Coq Require Import Reals List Bool Arith ZArith.
From Verif Require Import XR Keys LoopModel LoopSpec McmcModel WeightsModel SmcModel.
Import ListNotations.
Open Scope R_scope.

(** * [jnp.quantile(l, q)], linear interpolation *)
Fixpoint xinsert (x : xr) (l : list xr) : list xr :=
  match l with
  | [] => [x]
  | y :: l' => if xleb x y then x :: l else y :: xinsert x l'
  end.
Definition xsort (l : list xr) : list xr := fold_right xinsert [] l.

(** an index clamped into [0 .. n-1] *)
Definition clamp (n : nat) (z : Z) : nat := Nat.min (Z.to_nat z) (n - 1).

Definition quantile (l : list xr) (q : R) : xr :=
  if existsb isnan l then NaN else
  let s := xsort l in
  let h := q * (INR (length l) - 1) in
  let lo := Int_part h in
  let w := h - IZR lo in
  let hi := if Req_EM_T w 0 then lo else (lo + 1)%Z in
  xadd (xmul (nth (clamp (length l) lo) s NaN) (Fin (1 - w)))
       (xmul (nth (clamp (length l) hi) s NaN) (Fin w)).

(** * VanillaABC *)
Section Vanilla.
  Context {Data : Type}.
  Variable prior_sample : key -> vec.
  Variable prior_potential : vec -> key -> xr.
  Variable likelihood_sample : vec -> key -> Data.
  Variable distance : Data -> xr.
  Variable thr : xr.                     (* extra.parameters.threshold *)

  Record isample : Type := ISample { i_core : abc_core (Data := Data); i_lw : xr }.
  Record iextra : Type := IExtra { ie_iter : nat; ie_key : key }.

  (** importance.py 105-111, [VanillaABC.log_weight] *)
  Definition vanilla_log_weight (c : abc_core (Data := Data)) : xr :=
    if xltb (a_dist c) thr then Fin 0 else NInf.

  (** importance.py 59-79, [proposal] and [update]: the iteration counter is not
      changed. *)
  Definition vanilla_update (s : isample) (e : iextra) : isample * iextra :=
    let k := ie_key e in
    let v := prior_sample (KSplit k 4 1) in
    let pr := prior_potential v (KSplit k 4 2) in
    let dat := likelihood_sample v (KSplit k 4 3) in
    let c := ABC v pr dat (distance dat) in
    (ISample c (vanilla_log_weight c), IExtra (ie_iter e) (KSplit k 4 0)).

  (** importance.py 37-57 (no initial state) and abc.py 43-63 *)
  Definition vanilla_startup (k : key) : isample * iextra :=
    let v := prior_sample (KSplit k 2 1) in
    let k1 := KSplit k 2 0 in
    let pr := prior_potential v (KSplit k1 2 1) in
    let k2 := KSplit k1 2 0 in
    let dat := likelihood_sample v (KSplit k2 2 1) in
    let c := ABC v pr dat (distance dat) in
    (ISample c (vanilla_log_weight c), IExtra 0 (KSplit k2 2 0)).

  (** sample.py 80-83 and 135-140; importance.py 50: max_iter = n - 1 *)
  Definition vanilla_run (n : nat) (k : key) : list isample :=
    run_loop (fun _ e => (n - 1 <=? ie_iter e)%nat) vanilla_update (vanilla_startup k) (n - 1).
End Vanilla.

(** importance.py 113-121, [clean_chain_ar] *)
Definition clean_chain_ar {Data : Type} (rate : R) (chain : list (isample (Data := Data))) : list isample :=
  let t := quantile (map (fun s => a_dist (i_core s)) chain) rate in
  map (fun s => ISample (i_core s) (if xltb (a_dist (i_core s)) t then Fin 0 else NInf)) chain.

(** * Metropolised ABC-SMC *)
Section AbcSmc.
  Context {Data : Type}.

  Record apart : Type := APart {
    q_core : abc_core (Data := Data);
    q_alpha : xr; q_thr : xr; q_lw : xr; q_ess : xr }.
  Definition aensemble := list apart.

  Record aextra : Type := AExtra {
    ae_iter : nat; ae_key : key; ae_resampled : bool;
    ae_thr : xr; ae_step : nat -> R; ae_alpha_mean : xr }.

  (** [random.categorical(key, logits, shape=(n,))] *)
  Variable categorical : key -> list xr -> nat -> list nat.
  (** the inner ABC-MCMC sampler, smc.py 184-208: startup and [mcmc_steps]
      updates with threshold, step size and key; the last state and the mean
      acceptance probability *)
  Variable inner : xr -> (nat -> R) -> key -> abc_core (Data := Data) -> abc_core (Data := Data) * xr.
  (** smc.py 116 or 221-226, [adapt_mcmc_params]: the step size *)
  Variable adapt_step : aensemble -> (nat -> R) -> nat -> R.
  (** the attribute [next_threshold], smc.py 38 or 40 *)
  Variable next_threshold : aensemble -> nat -> xr.
  (** parameters.ess_threshold_resample *)
  Variable resample_threshold : R.
  (** what an index outside the ensemble would give; never used *)
  Variable dflt : apart.

  Definition afirst_ess (E : aensemble) : xr := match E with [] => NaN | p :: _ => q_ess p end.

  (** smc.py 152-155 *)
  Definition a_resample_criterion (E : aensemble) : bool :=
    xltb (afirst_ess E) (Fin (resample_threshold * INR (length E))).

  (** transport/smc.py 61-71 *)
  Definition a_resample (E : aensemble) (k : key) : aensemble :=
    let n := length E in
    map (fun i => let p := nth i E dflt in APart (q_core p) (q_alpha p) (q_thr p) (Fin 0) (Fin (INR n)))
        (categorical k (map q_lw E) n).

  (** smc.py 168-173, [log_weight] *)
  Definition a_log_weight (thr : xr) (c : abc_core (Data := Data)) : xr :=
    if xltb thr (a_dist c) then NInf else Fin 0.

  (** smc.py 210-219, [forward_proposal] *)
  Definition a_forward (thr : xr) (step : nat -> R) (k : key) (p : apart) : apart :=
    if xltb NInf (q_lw p)
    then let '(c, al) := inner thr step k (q_core p) in APart c al (q_thr p) (q_lw p) (q_ess p)
    else p.

  (** smc.py 228-245, [adapt]; [prev] gives the previous log weights *)
  Definition a_alpha_mean (prev new : aensemble) : xr :=
    let alive := map (fun p => xltb NInf (q_lw p)) prev in
    xdiv (xsum (map (fun pb => xmul (q_alpha (fst pb)) (xbool (snd pb))) (combine new alive)))
         (INR (length (filter (fun b => b) alive))).

  Definition a_adapt (prev new : aensemble) (e : aextra) : aensemble * aextra :=
    let t := next_threshold new (ae_iter e) in
    let lw := map (fun p => a_log_weight t (q_core p)) new in
    let ess := ess_log_weight lw in
    let out := map (fun p => APart (q_core p) (q_alpha p) t (a_log_weight t (q_core p)) ess) new in
    (out,
     AExtra (ae_iter e) (ae_key e) (ae_resampled e) t (adapt_step out (ae_step e)) (a_alpha_mean prev new)).

  (** transport/smc.py 73-99, [update] *)
  Definition a_resampled (E : aensemble) (e : aextra) : aensemble :=
    if a_resample_criterion E then a_resample E (KSplit (ae_key e) (length E + 2) (length E)) else E.

  Definition a_moved (E : aensemble) (e : aextra) : aensemble :=
    let n := length E in
    map (fun ip => a_forward (ae_thr e) (ae_step e) (KSplit (ae_key e) (n + 2) (fst ip)) (snd ip))
        (combine (seq 0 n) (a_resampled E e)).

  Definition a_update (E : aensemble) (e : aextra) : aensemble * aextra :=
    let n := length E in
    a_adapt (a_resampled E e) (a_moved E e)
      (AExtra (S (ae_iter e)) (KSplit (ae_key e) (n + 2) (n + 1)) (a_resample_criterion E)
              (ae_thr e) (ae_step e) (ae_alpha_mean e)).

  (** smc.py 44-79 and 128-150, for given starting values, with [thr0] the
      initial threshold (infinity or the first of the schedule) *)
  Definition a_prestart (prior_potential : vec -> key -> xr) (likelihood_sample : vec -> key -> Data)
    (distance : Data -> xr) (thr0 : xr) (vs : list vec) (k : key) : aensemble :=
    let n := length vs in
    map (fun iv =>
           let v := snd iv in
           let dat := likelihood_sample v (KSplit (KSplit k (n + 1) n) (n + 1) (fst iv)) in
           APart (ABC v (prior_potential v (KSplit k (n + 1) (fst iv))) dat (distance dat))
                 (Fin 1) thr0 (Fin 0) (Fin (INR n)))
        (combine (seq 0 n) vs).

  Definition a_startup prior_potential likelihood_sample distance (thr0 : xr) (vs : list vec) (k : key)
    (step : nat -> R) : aensemble * aextra :=
    let n := length vs in
    let E := a_prestart prior_potential likelihood_sample distance thr0 vs k in
    let '(out, e) := a_adapt E E (AExtra 0 (KSplit (KSplit k (n + 1) n) (n + 1) n) true thr0 step (Fin 1)) in
    (* the previous and the new ensemble are the same object here, so line 240
       reads the new log weights *)
    (out, AExtra (ae_iter e) (ae_key e) (ae_resampled e) (ae_thr e) (ae_step e) (a_alpha_mean out out)).

  (** smc.py 157-161 and sample.py 135-140 *)
  Definition a_run (max_iter : nat) (termination_alpha : R) (init : aensemble * aextra) : list aensemble :=
    run_loop (fun _ e => xleb (ae_alpha_mean e) (Fin termination_alpha) || (max_iter <=? ae_iter e)%nat)
             a_update init max_iter.
End AbcSmc.

(** smc.py 163-166, [next_threshold_adaptive] *)
Definition next_threshold_adaptive {Data : Type} (retain : R) : aensemble (Data := Data) -> nat -> xr :=
  fun E _ => match afirst_ess E with
             | Fin e => quantile (map (fun p => a_dist (q_core p)) E) (retain * e / INR (length E))
             | _ => NaN
             end.

(** smc.py 40: [self.threshold_schedule[extra.iter]]; JAX clamps the index *)
Definition next_threshold_scheduled {Data : Type} (l : list xr) : aensemble (Data := Data) -> nat -> xr :=
  fun _ it => nth it l (last l NaN).

(** smc.py 86-91, [clean_chain]: the recorded thresholds *)
Definition a_thresholds {Data : Type} (chain : list (aensemble (Data := Data))) : list xr :=
  map (fun E => match E with [] => NaN | p :: _ => q_thr p end) chain.

(** RandomWalkABC with Metropolis as the inner sampler, smc.py 175-208: all
    attributes exist, so its startup only sets the acceptance probability. *)
Definition rwabc_inner {Data : Type} (normal : key -> nat -> R) (prior_potential : vec -> key -> xr)
  (likelihood_sample : vec -> key -> Data) (distance : Data -> xr) (uniform : key -> R) (steps : nat)
  (thr : xr) (step : nat -> R) (k : key) (c : abc_core (Data := Data)) : abc_core (Data := Data) * xr :=
  let update := abc_update normal prior_potential likelihood_sample distance uniform in
  let init := (MState c (Fin 1), MExtra 0 k (ABCPar thr step (fun _ => 0) (fun _ => 0))) in
  (core (fst (iterate update steps init)),
   xdiv (xsum (map (fun j => alpha (fst (iterate update (S j) init))) (seq 0 steps))) (INR steps)).

(** * The attribute threshold_schedule, smc.py 24-42.  [None]: an exception. *)
Record asampler : Type := ASampler { as_max_iter : nat; as_schedule : option (option (list xr)) }.

(** [as_schedule = None]: the attribute does not exist yet. *)
Definition set_threshold_schedule (v : option (list xr)) (s : asampler) : option asampler :=
  match v with
  | Some l => Some (ASampler (length l) (Some (Some l)))
  | None =>
      match as_schedule s with
      | None => Some (ASampler (as_max_iter s) (Some None))
      | Some None => None              (* len(None) raises *)
      | Some (Some l) =>
          Some (ASampler (if (as_max_iter s =? length l)%nat then 10000%nat else as_max_iter s) (Some None))
      end
  end.

Definition construct_asampler (max_iter : nat) (schedule : option (list xr)) : option asampler :=
  set_threshold_schedule schedule (ASampler max_iter None).
