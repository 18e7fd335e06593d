(** Specification of the expected values of quantities computed from a particle
    filter's output, as nested finite sums over its draws, and of the evidence
    of a hidden Markov model by the forward recursion. *)
From Coq Require Import Reals List Arith Bool.
From Verif Require Import XR Keys WeightsSpec SmcSpec UnbSpec FilterModel.
Import ListNotations.
Open Scope R_scope.

Section Spec.
  Context {X Tm : Type}.
  Variable dx : X.
  Variable supp : list X.

  (** * The filter with given draws *)
  Definition pick (ys : list X) (d : X) (k : key) : X :=
    match k with KSplit _ _ i => nth i ys d | KRoot _ => d end.
  Definition with_initial (F : pfilter X Tm) (vs : list X) : pfilter X Tm :=
    PFilter (fun _ _ k => pick vs dx k) (initial_log_weight F) (proposal_sample F) (intermediate_log_weight F).
  Definition with_proposals (F : pfilter X Tm) (ys : list X) : pfilter X Tm :=
    PFilter (initial_sample F) (initial_log_weight F) (fun _ _ _ _ k => pick ys dx k) (intermediate_log_weight F).

  (** * The laws of the draws *)
  (** random.categorical with the given log weights *)
  Definition index_law (lw : list xr) : law nat :=
    map (fun i => (i, weight (nth i lw NInf) / Rsum (weights lw))) (seq 0 (length lw)).
  (** initial states, and proposals from [x0] *)
  Variable mu : X -> R.
  Variable q : X -> Tm -> obs -> Tm -> X -> R.
  Definition init_law : law X := map (fun x => (x, mu x)) supp.
  Definition prop_law (x0 : X) (t0 : Tm) (y : obs) (t1 : Tm) : law X := map (fun x => (x, q x0 t0 y t1 x)) supp.

  (** * Expectations *)
  Variable F : pfilter X Tm.
  Variable thr : R.
  Variable n : nat.

  Definition resamples (s : marginal X Tm) : bool := xltb (m_ess s) (Fin (thr * INR n)).

  Definition filter_step_mean (s : marginal X Tm) (y : obs) (t : Tm) (k : key) (G : marginal X Tm -> R) : R :=
    expect (repeat (index_law (m_lw s)) n) (fun idx =>
      let x0 := if resamples s then map (fun i => nth i (m_value s) dx) idx else m_value s in
      expect (map (fun x => prop_law x (m_t s) y t) x0) (fun ys =>
        G (filter_body dx (indices idx) (with_proposals F ys) thr n s y t k))).

  (** all steps, collecting what the filter records *)
  Fixpoint filter_scan_mean (s : marginal X Tm) (yts : list (obs * Tm)) (ks : list key) (G : list (marginal X Tm) -> R) : R :=
    match yts, ks with
    | (y, t) :: yts', k :: ks' =>
        filter_step_mean s y t k (fun s' => filter_scan_mean s' yts' ks' (fun ms => G (s' :: ms)))
    | _, _ => G []
    end.

  (** a run: initial particles, then the steps *)
  Definition filter_mean (y0 : obs) (t0 : Tm) (yts : list (obs * Tm)) (k0 : key) (ks : list key)
    (G : marginal X Tm -> list (marginal X Tm) -> R) : R :=
    expect (repeat init_law n) (fun vs =>
      match last_marginal (initiate_particles (with_initial F vs) n k0 y0 t0) with
      | Some s => filter_scan_mean s yts ks (G s)
      | None => 0
      end).

  (** * Evidence read off a recorded run: the mean weight at the first time, then
      at each time the sum of the new weights over the sum of the weights the
      step started from (n equal weights if it resampled). *)
  Fixpoint evidence_from (z : R) (s : marginal X Tm) (ms : list (marginal X Tm)) : R :=
    match ms with
    | [] => z
    | s' :: ms' =>
        evidence_from (z * (Rsum (weights (m_lw s')) / (if resamples s then INR n else Rsum (weights (m_lw s))))) s' ms'
    end.
  Definition evidence (s : marginal X Tm) (ms : list (marginal X Tm)) : R :=
    evidence_from (Rsum (weights (m_lw s)) / INR n) s ms.
  (** weighted average of [phi] over the particles of one time *)
  Definition average (phi : X -> R) (s : marginal X Tm) : R := weighted_mean (weights (m_lw s)) (map phi (m_value s)).

  (** * The forward recursion of the hidden Markov model *)
  Variable trans : X -> Tm -> X -> Tm -> R.
  Variable like : X -> obs -> Tm -> R.
  Fixpoint forward (a : X -> R) (t0 : Tm) (yts : list (obs * Tm)) : X -> R :=
    match yts with
    | [] => a
    | (y, t) :: r => forward (fun x => Rsum (map (fun x0 => a x0 * trans x0 t0 x t) supp) * like x y t) t r
    end.
End Spec.
