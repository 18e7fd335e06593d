(** Specification of the paths of a particle filter propagated step by step with
    [resample_full], and of the joint law of the states of a hidden Markov model. *)
From Coq Require Import Reals List Arith Bool.
From Verif Require Import XR Keys WeightsSpec SmcSpec UnbSpec FilterModel.
Import ListNotations.
Open Scope R_scope.

Section Spec.
  Context {X Tm : Type}.
  Variable dx : X.

  (** A user's loop over filtering.py 220-252 with [resample_full=True] that keeps
      the particles of every step *)
  Fixpoint kept (cat : key -> list xr -> nat -> list nat) (F : pfilter X Tm) (thr : R) (p : particles X Tm)
    (steps : list (obs * Tm * key)) : option (list (particles X Tm)) :=
    match steps with
    | [] => Some []
    | (y, t, k) :: r =>
        match propagate_particle_filter dx cat F p y t k thr true with
        | Some p' => match kept cat F thr p' r with Some ps => Some (p' :: ps) | None => None end
        | None => None
        end
    end.

  (** * Reading particles: the weights of the last time, and the path of each
      particle, its states at the times in order *)
  Definition last_weights (p : particles X Tm) : list R :=
    match at_last (log_weight p) with Some lw => weights lw | None => [] end.
  Definition low_ess (thr : R) (n : nat) (p : particles X Tm) : bool :=
    match at_last (ess p) with Some e => xltb e (Fin (thr * INR n)) | None => false end.
  Definition path_of (p : particles X Tm) (i : nat) : list X := map (fun row => nth i row dx) (value p).

  (** the mean weight at the first time, then for each step the sum of the new
      weights over the sum of the weights it started from ([n] equal weights if
      it resampled) *)
  Fixpoint kept_evidence_from (thr : R) (n : nat) (z : R) (p : particles X Tm) (ps : list (particles X Tm)) : R :=
    match ps with
    | [] => z
    | p' :: r =>
        kept_evidence_from thr n
          (z * (Rsum (last_weights p') / (if low_ess thr n p then INR n else Rsum (last_weights p)))) p' r
    end.
  Definition kept_evidence (thr : R) (n : nat) (p : particles X Tm) (ps : list (particles X Tm)) : R :=
    kept_evidence_from thr n (Rsum (last_weights p) / INR n) p ps.
  (** weighted average of a function of the whole path *)
  Definition path_average (n : nat) (phi : list X -> R) (p : particles X Tm) : R :=
    weighted_mean (last_weights p) (map (fun i => phi (path_of p i)) (seq 0 n)).

  (** evidence times average, from the particles at the first time; 0 if a step raises *)
  Definition of_kept (thr : R) (n : nat) (phi : list X -> R) (p : particles X Tm) (o : option (list (particles X Tm))) : R :=
    match o with
    | Some ps => kept_evidence thr n p ps * path_average n phi (last ps p)
    | None => 0
    end.

  (** * The hidden Markov model *)
  (** all paths of [m] states *)
  Fixpoint words (supp : list X) (m : nat) : list (list X) :=
    match m with
    | O => [[]]
    | S m => flat_map (fun x => map (cons x) (words supp m)) supp
    end.
  (** density of the states after [x] and of their observations *)
  Variable trans : X -> Tm -> X -> Tm -> R.
  Variable like : X -> obs -> Tm -> R.
  Fixpoint after (x : X) (t : Tm) (yts : list (obs * Tm)) (path : list X) : R :=
    match yts, path with
    | [], [] => 1
    | (y, t') :: r, x' :: path' => trans x t x' t' * like x' y t' * after x' t' r path'
    | _, _ => 0
    end.
  (** density of a whole path and its observations *)
  Definition joint_density (init : X -> R) (y0 : obs) (t0 : Tm) (yts : list (obs * Tm)) (path : list X) : R :=
    match path with
    | x :: path' => init x * like x y0 t0 * after x t0 yts path'
    | [] => 0
    end.
End Spec.
