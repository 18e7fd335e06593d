(** Specification of the law of backward simulation: forward filtering backward
    sampling, as nested finite sums. *)
From Coq Require Import Reals List Arith.
From Verif Require Import XR Keys WeightsSpec McmcSpec UnbSpec BackSpec.
Import ListNotations.
Open Scope R_scope.

(** true with probability [1 - q] *)
Definition bern (q : R) : law bool := [(false, q); (true, 1 - q)].

(** the law of [random.categorical] *)
Definition cat_law (lw : list xr) : law nat :=
  map (fun i => (i, weight (nth i lw NInf) / Rsum (weights lw))) (seq 0 (length lw)).

(** What the draws at one key are, as functions of the value [x : W] of the
    stream at that key: one categorical draw, [n] of them, a uniform number,
    [n] of them. *)
Record sampler (W : Type) : Type := Sampler {
  s_cat1 : W -> list xr -> nat;
  s_cat : W -> list xr -> nat -> list nat;
  s_unif : W -> R;
  s_unifn : W -> nat -> list R }.
Arguments s_cat1 {W}. Arguments s_cat {W}. Arguments s_unif {W}. Arguments s_unifn {W}.

(** whatever the stream, the draws are in range *)
Definition sampler_ok {W} (sm : sampler W) : Prop :=
  forall w : key -> W, categorical1_ok (fun k => s_cat1 sm (w k)) /\ categorical_n_ok (fun k => s_cat sm (w k))
  /\ forall k n, length (s_unifn sm (w k) n) = n.

(** the categorical draws have the right law at the log weights [L] *)
Definition cat_faithful {W} (P : law W) (sm : sampler W) (L : list xr -> Prop) (n : nat) : Prop :=
  forall lw, L lw ->
  (forall phi, mean P (fun x => phi (s_cat1 sm x lw)) = mean (cat_law lw) phi)
  /\ (forall phi, mean P (fun x => phi (s_cat sm x lw n)) = expect (repeat (cat_law lw) n) phi).

(** the uniform numbers exceed [q] with probability [1 - q], independently, for
    the thresholds [Q] *)
Definition unif_faithful {W} (P : law W) (sm : sampler W) (Q : R -> Prop) (n : nat) : Prop :=
  (forall q phi, Q q -> mean P (fun x => phi (Rltb q (s_unif sm x))) = mean (bern q) phi)
  /\ (forall qs phi, length qs = n -> List.Forall Q qs ->
      mean P (fun x => phi (map (fun qu => Rltb (fst qu) (snd qu)) (combine qs (s_unifn sm x n)))) = expect (map bern qs) phi).

Section S.
  Context {X Tm : Type}.
  Variable dx : X.
  Variable dt : Tm.
  Variable pot : X -> Tm -> X -> Tm -> xr.
  Variable V : list (list X).
  Variable Wt : list (list xr).
  Variable ts : list Tm.

  (** a particle of row [s], with its weight *)
  Definition particle_law (s : nat) : law X :=
    map (fun i => (nth i (nth s V []) dx, weight (nth i (nth s Wt []) NInf) / Rsum (weights (nth s Wt []))))
        (seq 0 (length (nth s V []))).

  (** a particle of row [s] given the state [x1] at the next time: weight times
      transition density, normalised *)
  Definition back_weight (s : nat) (x1 : X) (i : nat) : R :=
    weight (nth i (nth s Wt []) NInf) * density (pot (nth i (nth s V []) dx) (nth s ts dt) x1 (nth (S s) ts dt)).
  Definition back_law (s : nat) (x1 : X) : law X :=
    let is := seq 0 (length (nth s V [])) in
    map (fun i => (nth i (nth s V []) dx, back_weight s x1 i / Rsum (map (back_weight s x1) is))) is.

  (** expectation of [phi] of the rows 0 to [s] of the trajectories when their
      states at time [s] are [xs] *)
  Fixpoint back_mean (s : nat) (xs : list X) (phi : list (list X) -> R) : R :=
    match s with
    | O => phi [xs]
    | S s' => expect (map (back_law s') xs) (fun ys => back_mean s' ys (fun rows => phi (rows ++ [xs])))
    end.

  (** [n] trajectories over the times 0 to [T] *)
  Definition smoothing_mean (T n : nat) (phi : list (list X) -> R) : R :=
    expect (repeat (particle_law T) n) (fun xs => back_mean T xs phi).

  (** the log weights from which states are drawn: those of a row, and those
      of a row given a particle of the next *)
  Definition drawn_from (T : nat) (lw : list xr) : Prop :=
    (exists s, (s <= T)%nat /\ lw = nth s Wt [])
    \/ exists s x1, (s < T)%nat /\ weighted_particle dx (nth (S s) V []) (nth (S s) Wt []) x1
       /\ lw = map (fun lx => xsub (fst lx) (pot (snd lx) (nth s ts dt) x1 (nth (S s) ts dt))) (combine (nth s Wt []) (nth s V [])).

  (** ratios of transition density and bound *)
  Definition ratio (T : nat) (b q : R) : Prop :=
    exists s x0 x1, (s < T)%nat /\ weighted_particle dx (nth s V []) (nth s Wt []) x0
      /\ weighted_particle dx (nth (S s) V []) (nth (S s) Wt []) x1
      /\ q = density (pot x0 (nth s ts dt) x1 (nth (S s) ts dt)) / b.
End S.
