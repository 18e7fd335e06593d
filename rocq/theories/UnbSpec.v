(** Specification of the expected value of a quantity computed from an SMC run
    whose draws are random, as nested finite sums.

    A law is a finite list of outcomes with their probabilities.  The draws of
    one stage are independent given the past, so an expectation over a list of
    draws is one sum per draw. *)
From Coq Require Import Reals List Arith.
From Verif Require Import XR Keys McmcModel WeightsSpec SmcModel SmcSpec.
Import ListNotations.
Open Scope R_scope.

Definition law (A : Type) : Type := list (A * R).

Definition mean {A} (d : law A) (f : A -> R) : R := Rsum (map (fun ap => snd ap * f (fst ap)) d).

(** expectation of [f] of the list of independent draws, one from each law *)
Fixpoint expect {A} (ds : list (law A)) (f : list A -> R) : R :=
  match ds with
  | [] => f []
  | d :: ds' => mean d (fun a => expect ds' (fun l => f (a :: l)))
  end.

Section Unbiased.
  (** prior and likelihood potentials, finite support *)
  Variable fp fl : vec -> R.
  Variable supp : list vec.
  (** the inner sampler's transition probabilities at a temperature: [K t x y] *)
  Variable K : R -> vec -> vec -> R.
  Variable gprior glik : vec -> key -> vec.
  Variable l : list R.
  Variable thr : R.

  Definition prior (v : vec) (_ : key) : xr := Fin (fp v).
  Definition lik (v : vec) (_ : key) : xr := Fin (fl v).

  (** unnormalised tempered density, and sums against it *)
  Definition gam (t : R) (x : vec) : R := exp (- fp x - t * fl x).
  Definition gsum (t : R) (phi : vec -> R) : R := Rsum (map (fun x => gam t x * phi x) supp).

  (** the laws of the draws: scenario.prior_sample; random.categorical on the
      recorded log weights; the inner sampler from [x] *)
  Definition prior_law : law vec := map (fun x => (x, gam 0 x / gsum 0 (fun _ => 1))) supp.
  Definition cat_law (E : ensemble) : law nat :=
    map (fun i => (i, weight (nth i (map p_lw E) NInf) / Rsum (weights (map p_lw E)))) (seq 0 (length E)).
  Definition kernel_law (t : R) (x : vec) : law vec := map (fun y => (y, K t x y)) supp.

  (** an inner sampler that returns the given values, particle by particle *)
  Definition moves (ys : list vec) (t step : R) (k : key) (v : vec) : (vec * xr * xr) * key :=
    let y := match k with KSplit _ _ i => nth i ys v | KRoot _ => v end in
    ((y, tpot prior lik t y k, Fin 1), k).

  Definition indices (idx : list nat) (_ : key) (_ : list xr) (_ : nat) : list nat := idx.

  (** expectation of [G] of the state after one update *)
  Definition step_mean (c : ensemble * sextra) (G : ensemble * sextra -> R) : R :=
    let (E, e) := c in
    expect (repeat (cat_law E) (length E)) (fun idx =>
      expect (map (fun p => kernel_law (p_temp (first E)) (p_value p)) (resampled_ensemble (indices idx) thr E e)) (fun ys =>
        G (smc_update prior (indices idx) (moves ys) (scheduled l) thr E e))).

  Fixpoint run_mean (J : nat) (c : ensemble * sextra) (G : ensemble * sextra -> R) : R :=
    match J with
    | O => G c
    | S J' => step_mean c (fun c' => run_mean J' c' G)
    end.

  (** [n] particles drawn from the prior, startup, [J] updates *)
  Definition smc_mean (n J : nat) (k : key) (st : R) (G : ensemble * sextra -> R) : R :=
    expect (repeat prior_law n) (fun vs =>
      run_mean J (smc_startup prior lik gprior glik (scheduled l) vs k st) G).

  (** the two quantities of interest: exp of the recorded log_norm_constant, and
      that times the weighted average of [phi] over the particles *)
  Definition norm_constant (c : ensemble * sextra) : R := exp (rval (p_lnc (first (fst c)))).
  Definition estimate (phi : vec -> R) (c : ensemble * sextra) : R :=
    norm_constant c * weighted_mean (weights (map p_lw (fst c))) (map (fun p => phi (p_value p)) (fst c)).

  (** what is asked of the kernel: rows sum to one, and the tempered density is
      invariant *)
  Definition rows_ok : Prop := forall t x, 0 < t -> In x supp -> Rsum (map (K t x) supp) = 1.
  Definition invariant_ok : Prop := forall t y, 0 < t -> In y supp ->
    Rsum (map (fun x => gam t x * K t x y) supp) = gam t y.
End Unbiased.
