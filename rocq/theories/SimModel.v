(** The simulators of mocat/src/abc/scenarios/SIR.py, lotka_volterra.py and
    ricker.py.  Counts are integers, no rounding.  [uniform k] is the number in
    [0, 1) drawn from the key [k]. *)
From Coq Require Import Reals ZArith List Arith Bool.
From Verif Require Import XR Keys LoopModel.
Import ListNotations.
Open Scope R_scope.

(** SIR.py 15, lotka_volterra.py 15 *)
Definition exponential_sample_buffer : R := 1 / 1000000.

(** A finite number divided by a finite number, with zero divisors as in IEEE *)
Definition rdiv (a b : R) : xr :=
  if Req_EM_T b 0 then (if Rlt_dec 0 a then PInf else if Rlt_dec a 0 then NInf else NaN) else Fin (a / b).

(** [jnp.searchsorted(a, v)] (side left): jax's loop of ceil(log2(n + 1))
    halvings of the interval (0, n), whether or not [a] is sorted. *)
Fixpoint halve (a : list xr) (v : xr) (levels low high : nat) : nat :=
  match levels with
  | O => high
  | S l =>
      let mid := Nat.div (low + high) 2 in
      if xleb v (nth mid a NaN) then halve a v l low mid else halve a v l mid high
  end.
Definition searchsorted (a : list xr) (v : xr) : nat := halve a v (Nat.log2_up (S (length a))) 0 (length a).

Fixpoint cumsum (s : xr) (l : list xr) : list xr :=
  match l with [] => [] | a :: l' => let s' := xadd s a in s' :: cumsum s' l' end.

(** An index past the end of an array reads the last entry *)
Definition at_clamped {A : Type} (d : A) (l : list A) (i : nat) : A := nth (Nat.min i (length l - 1)) l d.

Section Simulators.
Variable uniform : key -> R.

(** [random.choice(k, n, p=p)]: jax searches the cumulative sums of [p] for
    their last one times 1 minus a uniform *)
Definition choice (k : key) (p : list xr) : nat :=
  let c := cumsum (Fin 0) p in
  searchsorted c (xmul (last c NaN) (Fin (1 - uniform k))).

Definition rsum (l : list R) : R := fold_right Rplus 0 l.

(** SIR.py 24-28 and 31, lotka_volterra.py 26-30 and 33: what both steps do with
    their hazards and possibilities *)
Definition jump (hazards : list R) (possibilities : list (Z * Z)) (time : xr) (t_key haz_key : key) : (Z * Z) * xr :=
  let sum_hazards := rsum hazards in
  let t_increment := rdiv (- ln (exponential_sample_buffer + uniform t_key)) sum_hazards in
  let hazard_probs := map (fun h => rdiv h sum_hazards) hazards in
  (at_clamped (0, 0)%Z possibilities (choice haz_key hazard_probs), xadd time t_increment).

(** SIR.py 18-32; the population size is positive, the parameters and the
    population size are carried unchanged *)
Definition sir_step (p0 p1 pop : R) (carry : (Z * Z) * xr) (k : key) : ((Z * Z) * xr) * key :=
  let '((s, i), time) := carry in
  let hazards := [p0 / pop * IZR s * IZR i; p1 * IZR i] in
  let possibilities := [(s - 1, i + 1)%Z; (s, i - 1)%Z] in
  (jump hazards possibilities time (KSplit k 3 0) (KSplit k 3 1), KSplit k 3 2).

(** SIR.py 35-46: times and states *)
Definition sir_simulate (init : Z * Z) (p0 p1 pop : R) (k : key) (max_iter : nat) : list xr * list (Z * Z) :=
  let stack := fst (fst (while_loop_stacked_raw (fun c (_ : key) => Z.ltb 0 (snd (fst c)))
                                                (sir_step p0 p1 pop) ((init, Fin 0), k) max_iter)) in
  (map snd stack, map fst stack).

(** lotka_volterra.py 18-33 *)
Definition lv_step (p0 p1 p2 : R) (carry : (Z * Z) * xr) (k : key) : ((Z * Z) * xr) * key :=
  let '((prey, pred), time) := carry in
  let hazards := [p0 * IZR prey; p1 * IZR prey * IZR pred; p2 * IZR pred] in
  let possibilities := [(prey + 1, pred)%Z; (prey - 1, pred + 1)%Z; (prey, pred - 1)%Z] in
  (jump hazards possibilities time (KSplit k 3 0) (KSplit k 3 1), KSplit k 3 2).

(** lotka_volterra.py 49: [jnp.where(simulated_times == 0, inf, simulated_times)] *)
Definition zero_to_inf (t : xr) : xr :=
  match t with Fin r => if Req_EM_T r 0 then PInf else Fin r | _ => t end.

(** lotka_volterra.py 50: entry [i - 1]; entry -1 is the last one *)
Definition before {A : Type} (d : A) (l : list A) (i : nat) : A :=
  match i with O => nth (length l - 1) l d | S j => nth j l d end.

(** lotka_volterra.py 36-50; [t0 :: ts] are the times *)
Definition lv_stack (init : Z * Z) (t0 : R) (ts : list R) (p0 p1 p2 : R) (k : key) (max_iter : nat) : list ((Z * Z) * xr) :=
  let max_time := fold_right Rmax t0 ts in
  fst (fst (while_loop_stacked_raw (fun c (_ : key) => xltb (snd c) (Fin max_time))
                                   (lv_step p0 p1 p2) ((init, Fin t0), k) max_iter)).
Definition lv_simulate (init : Z * Z) (t0 : R) (ts : list R) (p0 p1 p2 : R) (k : key) (max_iter : nat) : list (Z * Z) :=
  let stack := lv_stack init t0 ts p0 p1 p2 k max_iter in
  let simulated_times := map zero_to_inf (map snd stack) in
  map (fun t => before (0, 0)%Z (map fst stack) (searchsorted simulated_times (Fin t))) ts.

(** lotka_volterra.py 72-75: the prey *)
Definition lv_likelihood_sample (init : Z * Z) (t0 : R) (ts : list R) (p0 p1 p2 : R) (k : key) (max_iter : nat) : list Z :=
  map fst (lv_simulate init t0 ts p0 p1 p2 k max_iter).
End Simulators.

(** * The exponential priors, SIR.py 59-66 and lotka_volterra.py 63-70, for one
    rate, and their logarithms, SIR.py 85-92 and lotka_volterra.py 88-95.  The
    [u] is the uniform drawn; the log of a non-positive number is not finite. *)
Definition prior_sample (rate u : R) : R := - ln (exponential_sample_buffer + u) / rate.
Definition prior_potential (rate x : R) : R := rate * x.
Definition unconstrain (x : R) : xr := if Rlt_dec 0 x then Fin (ln x) else if Req_EM_T x 0 then NInf else NaN.
Definition transformed_prior_sample (rate u : R) : xr := unconstrain (prior_sample rate u).
Definition transformed_prior_potential (rate x : R) : R := rate * exp x - x.

(** * ricker.py 16-28; [normal k] is the standard normal drawn from [k] *)
Section Ricker.
Variable normal : key -> R.
Definition ricker_simulate (initial_n r noise_sd : R) (num_steps : nat) (k : key) : list R :=
  let body n i := let new_n := r * n * exp (- n + noise_sd * normal (KSplit k num_steps i)) in (new_n, new_n) in
  initial_n :: snd (scan body initial_n (seq 0 num_steps)).

(** ricker.py 40-47; [poisson k rates] are the draws, minus one where the rate
    is not usable.  Indices past the end read the last entry. *)
Variable poisson : key -> list R -> list Z.
Definition ricker_likelihood_sample (initial_n x0 x1 x2 : R) (num_steps : nat) (inds : list nat) (k : key) : list Z :=
  let ns := ricker_simulate initial_n x0 x1 num_steps (KSplit k 2 0) in
  let observed := map (at_clamped 0 ns) inds in
  map (fun o => if Z.ltb o 0 then 0%Z else o) (poisson (KSplit k 2 1) (map (Rmult x2) observed)).
End Ricker.
