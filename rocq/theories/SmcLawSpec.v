(** Specification of the draws of an SMC run. *)
From Coq Require Import Reals List Arith.
From Verif Require Import XR Keys McmcModel WeightsSpec SmcModel SmcSpec UnbSpec.
Import ListNotations.
Open Scope R_scope.

(** The states an SMC run with [n] particles in [supp] can be in, whatever is
    drawn. *)
Inductive reached (fp fl : vec -> R) (supp : list vec) (gprior glik : vec -> key -> vec) (l : list R) (thr : R) (n : nat)
  : ensemble * sextra -> Prop :=
| reached_start vs k st :
    length vs = n -> incl vs supp ->
    reached fp fl supp gprior glik l thr n (smc_startup (prior fp) (lik fl) gprior glik (scheduled l) vs k st)
| reached_update E e idx ys :
    reached fp fl supp gprior glik l thr n (E, e) ->
    length idx = n -> List.Forall (fun i => (i < n)%nat) idx -> length ys = n -> incl ys supp ->
    reached fp fl supp gprior glik l thr n (smc_update (prior fp) (indices idx) (moves fp fl ys) (scheduled l) thr E e)
(* whatever the key *)
| reached_key E e k :
    reached fp fl supp gprior glik l thr n (E, e) ->
    reached fp fl supp gprior glik l thr n (E, SExtra (s_iter e) k (s_resampled e) (s_step e)).

(** [random.categorical] at one key: [n] independent draws with probabilities
    proportional to the weights *)
Definition multinomial {W} (P : law W) (cat : W -> list xr -> nat -> list nat) (E : ensemble) : Prop :=
  forall phi, mean P (fun x => phi (cat x (map p_lw E) (length E))) = expect (repeat (cat_law E) (length E)) phi.
