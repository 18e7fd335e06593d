(** Specification of the law of fixed-lag stitching: every early trajectory gets
    a recent one, drawn by weight times the transition density from its own end
    over the transition density the recent trajectory was made with. *)
From Coq Require Import Reals List Arith.
From Verif Require Import XR Keys WeightsSpec McmcSpec UnbSpec BackSpec.
Import ListNotations.
Open Scope R_scope.

Section S.
  Context {X Tm : Type}.
  Variable dx : X.
  Variable pot : X -> Tm -> X -> Tm -> xr.
  Variables t t1 : Tm.
  (** recent trajectories at the two times, and their log weights *)
  Variables xv x1 : list X.
  Variable lw : list xr.

  Notation from a := (pot (nth a xv dx) t (nth a x1 dx) t1).
  Notation to x0 a := (pot x0 t (nth a x1 dx) t1).

  Definition stitch_weight (x0 : X) (a : nat) : R := weight (nth a lw NInf) * density (to x0 a) / density (from a).
  Definition stitch_law (x0 : X) : law nat :=
    let is := seq 0 (length lw) in
    map (fun a => (a, stitch_weight x0 a / Rsum (map (stitch_weight x0) is))) is.

  (** the recent trajectories can be stitched to the ends [ends] *)
  Definition stitchable (ends : list X) : Prop :=
    length xv = length lw /\ length x1 = length lw /\ lw_ok lw
    /\ (forall a, (a < length lw)%nat -> finite (from a))
    /\ forall x0, In x0 ends -> exists a, (a < length lw)%nat /\ finite (nth a lw NInf) /\ finite (to x0 a).

  (** the log weights from which indices are drawn *)
  Definition free_lw : list xr := map (fun a => xadd (nth a lw NInf) (from a)) (seq 0 (length lw)).
  Definition tied_lw (x0 : X) : list xr := map (fun a => xsub (xadd (nth a lw NInf) (from a)) (to x0 a)) (seq 0 (length lw)).
  Definition stitch_from (ends : list X) (l : list xr) : Prop := l = free_lw \/ exists x0, In x0 ends /\ l = tied_lw x0.

  (** ratios of transition density and bound *)
  Definition stitch_ratio (ends : list X) (b q : R) : Prop :=
    exists x0 a, In x0 ends /\ (a < length lw)%nat /\ finite (nth a lw NInf) /\ q = density (to x0 a) / b.
End S.

(** expectation of [phi] of the rows of the stitched trajectories *)
Definition stitch_mean {X Tm} (dx : X) (pot : X -> Tm -> X -> Tm -> xr) (t t1 : Tm) (early recent : list (list X)) (lw : list xr)
  (phi : list (list X) -> R) : R :=
  expect (map (stitch_law dx pot t t1 (nth 0 recent []) (nth 1 recent []) lw) (last early []))
    (fun idx => phi (early ++ map (fun row => map (fun a => nth a row dx) idx) (List.tl recent))).
