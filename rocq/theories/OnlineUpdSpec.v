(** Specification of the law of one update of online smoothing with backward
    simulation, as nested finite sums: a step of the filter, trajectories through
    the last times drawn backwards, each early trajectory stitched to one. *)
From Coq Require Import Reals List Arith.
From Verif Require Import XR Keys WeightsSpec UnbSpec BackSpec BackLawSpec OnlineLawSpec.
Import ListNotations.
Open Scope R_scope.

Section S.
  Context {X Tm : Type}.
  Variable dx : X.
  Variable dt : Tm.
  Variable pot : X -> Tm -> X -> Tm -> xr.
  (** rows of the filter's particles and of their log weights *)
  Variable V : list (list X).
  Variable Wt : list (list xr).
  (** law of the proposal from a particle, and the log weight of a move *)
  Variable plaw : X -> law X.
  Variable plw : X -> X -> xr.
  (** whether the last row is resampled first *)
  Variable resample : bool.

  Definition moved_weights (lw0 : list xr) (x0 x1 : list X) : list xr :=
    map (fun i => xadd (nth i lw0 NInf) (plw (nth i x0 dx) (nth i x1 dx))) (seq 0 (length x0)).
  Definition moved_mean (x0 : list X) (lw0 : list xr) (phi : list (list X) -> list (list xr) -> R) : R :=
    expect (map plaw x0) (fun x1 => phi (removelast V ++ [x0; x1]) (removelast Wt ++ [lw0; moved_weights lw0 x0 x1])).
  (** expectation of [phi] of the rows after the filter's step *)
  Definition step_mean (phi : list (list X) -> list (list xr) -> R) : R :=
    let m := length (last V []) in
    if resample
    then expect (repeat (cat_law (last Wt [])) m) (fun idx => moved_mean (map (fun i => nth i (last V []) dx) idx) (repeat (Fin 0) m) phi)
    else moved_mean (last V []) (last Wt []) phi.

  (** expectation of [phi] of the [n] trajectories and the filter's rows after an
      update: [old] are the trajectories before, [ts] the times with the new one *)
  Definition update_mean (old : list (list X)) (ts : list Tm) (lag n : nat)
    (phi : list (list X) -> list (list X) -> list (list xr) -> R) : R :=
    step_mean (fun V' W' =>
      if (length ts <=? lag)%nat
      then smoothing_mean dx dt pot V' W' ts (length ts - 1) n (fun rows => phi rows V' W')
      else
        let s := (length ts - lag - 1)%nat in
        smoothing_mean dx dt pot (skipn s V') (skipn s W') (skipn s ts) lag n (fun sim =>
          stitch_mean dx pot (nth s ts dt) (nth (S s) ts dt) (firstn (S s) old) sim (repeat (Fin 0) n) (fun rows => phi rows V' W'))).
End S.
