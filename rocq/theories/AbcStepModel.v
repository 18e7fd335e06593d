(** The default step size of the Metropolised ABC-SMC sampler
    (mocat/src/abc/smc.py 94-98, used when no [mcmc_sampler] is given, 114-116).

    Simplification: exact numbers; with fewer than two particles [jnp.cov]
    returns NaN, the model a number (the theorems ask for two). *)
From Coq Require Import Reals List.
From Verif Require Import XR Keys McmcModel SmcModel AbcModel.
Import ListNotations.
Open Scope R_scope.

Definition lmean (l : list R) : R := fold_right Rplus 0 l / INR (length l).

(** [jnp.cov] of one row of numbers: squared deviations over n - 1 *)
Definition jcov (l : list R) : R :=
  fold_right Rplus 0 (map (fun x => (x - lmean l) * (x - lmean l)) l) / (INR (length l) - 1).

(** smc.py 94-98: [vmap(jnp.cov, (1,))(ensemble_state.value) / d * 2.38 ** 2],
    one number for each coordinate; the weights are not used *)
Definition adapt_stepsize_scaled_diag_cov {Data : Type} (d : nat) (E : aensemble (Data := Data)) (_ : nat -> R) : nat -> R :=
  fun i => jcov (map (fun p => a_value (q_core p) i) E) / INR d * 2.38 ^ 2.

(** [MetropolisedABCSMCSampler()] : RandomWalkABC with these step sizes;
    [steps] is parameters.mcmc_steps *)
Section Default.
  Context {Data : Type}.
  Variable d : nat.
  Variable categorical : key -> list xr -> nat -> list nat.
  Variable normal : key -> nat -> R.
  Variable uniform : key -> R.
  Variable steps : nat.
  Variable next_threshold : aensemble (Data := Data) -> nat -> xr.
  Variable rthr : R.
  Variable prior_potential : vec -> key -> xr.
  Variable likelihood_sample : vec -> key -> Data.
  Variable distance : Data -> xr.
  Variable dflt : apart (Data := Data).

  Definition default_update : aensemble (Data := Data) -> aextra -> aensemble (Data := Data) * aextra :=
    a_update categorical (rwabc_inner normal prior_potential likelihood_sample distance uniform steps)
      (adapt_stepsize_scaled_diag_cov d) next_threshold rthr dflt.
  Definition default_startup (thr0 : xr) (vs : list vec) (k : key) : aensemble (Data := Data) * aextra :=
    a_startup (adapt_stepsize_scaled_diag_cov d) next_threshold prior_potential likelihood_sample distance thr0 vs k (fun _ => 0).
End Default.
