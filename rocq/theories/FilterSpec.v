(** Specification of particle filters, on rows of particles. *)
From Coq Require Import Reals List Arith.
From Verif Require Import XR Keys WeightsSpec McmcSpec.
Import ListNotations.
Open Scope R_scope.

Section S.
  Context {X Tm Y : Type}.
  Variable dx : X.
  Variable sample : X -> Tm -> Y -> Tm -> key -> X.
  Variable inc : X -> Tm -> X -> Y -> Tm -> xr.

  (** one step of a filter from states [x0] with log weights [lw0] and recorded
      effective sample size [e0]: [resampled] says whether the step resamples *)
  Definition filter_step (n : nat) (resampled : Prop) (x0 : list X) (lw0 : list xr) (t0 : Tm)
    (y : Y) (t1 : Tm) (x1 : list X) (lw1 : list xr) (e1 : xr) : Prop :=
    length x1 = n /\ length lw1 = n
    /\ (lw_ok lw1 -> e1 = Fin (kish (weights lw1)))
    /\ exists (anc : nat -> nat) (noise : nat -> key),
       forall i, (i < n)%nat ->
       (anc i < n)%nat
       /\ (lw_ok lw0 -> resampled -> finite (nth (anc i) lw0 NInf))
       /\ (~ resampled -> anc i = i)
       /\ nth i x1 dx = sample (nth (anc i) x0 dx) t0 y t1 (noise i)
       /\ (resampled -> nth i lw1 NaN = xadd (Fin 0) (inc (nth (anc i) x0 dx) t0 (nth i x1 dx) y t1))
       /\ (~ resampled -> nth i lw1 NaN = xadd (nth i lw0 NaN) (inc (nth (anc i) x0 dx) t0 (nth i x1 dx) y t1)).

  (** [x' ] may be the successor of [x] *)
  Definition successor (t0 : Tm) (y : Y) (t1 : Tm) (x x' : X) : Prop := exists k, x' = sample x t0 y t1 k.
End S.

(** the strict order on extended reals, false on NaN *)
Definition xlt (a b : xr) : Prop :=
  match a, b with
  | Fin r, Fin s => r < s
  | NInf, Fin _ | NInf, PInf | Fin _, PInf => True
  | _, _ => False
  end.

(** [f 0 * ... * f (n-1)] *)
Fixpoint prodn (n : nat) (f : nat -> R) : R :=
  match n with O => 1 | S n' => prodn n' f * f n' end.

(** a potential: finite, or plus infinity where the density is 0 *)
Definition potential_value (u : xr) : Prop := finite u \/ u = PInf.
