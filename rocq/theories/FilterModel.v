(** Particle filters, mocat/src/ssm/filtering.py.

    A state has any type [X], a time any type [Tm]; an observation is a
    one-dimensional array, a list of numbers.  Potentials and log weights are
    extended reals.  A two-dimensional array is the list of its rows.  Only runs
    with observations are modelled ([y] given, line 73).  [None] is a raised
    exception. *)
From Coq Require Import Reals List.
From Verif Require Import XR Keys HmcModel WeightsModel.
Import ListNotations.
Open Scope R_scope.

Notation obs := (list R).

Section Filter.
  Context {X Tm : Type}.
  Variable dx : X.   (* never seen: the value read by an index out of range *)

  (** What the filters use of a state-space model, ssm.py 47-81 *)
  Record smodel : Type := SModel {
    s_initial_potential : X -> Tm -> xr;
    s_initial_sample : Tm -> key -> X;
    s_transition_potential : X -> Tm -> X -> Tm -> xr;
    s_transition_sample : X -> Tm -> Tm -> key -> X;
    s_likelihood_potential : X -> obs -> Tm -> xr }.

  (** A particle filter: the methods of lines 42-54, 89-108 *)
  Record pfilter : Type := PFilter {
    initial_sample : obs -> Tm -> key -> X;
    initial_log_weight : X -> obs -> Tm -> xr;
    proposal_sample : X -> Tm -> obs -> Tm -> key -> X;
    intermediate_log_weight : X -> Tm -> X -> obs -> Tm -> xr }.

  (** The base class for given proposals: 42-54 and 98-108 *)
  Definition base_filter (M : smodel) (psample : X -> Tm -> obs -> Tm -> key -> X)
    (ppotential : X -> Tm -> X -> obs -> Tm -> xr) : pfilter :=
    PFilter (fun y t k => s_initial_sample M t k)
            (fun x y t => xopp (s_likelihood_potential M x y t))
            psample
            (fun x0 t0 x1 y1 t1 =>
               xadd (xsub (xopp (s_transition_potential M x0 t0 x1 t1)) (s_likelihood_potential M x1 y1 t1))
                    (ppotential x0 t0 x1 y1 t1)).

  (** BootstrapFilter, 142-170 *)
  Definition bootstrap_potential (M : smodel) : X -> Tm -> X -> obs -> Tm -> xr :=
    fun x0 t0 x1 y1 t1 => s_transition_potential M x0 t0 x1 t1.
  Definition bootstrap (M : smodel) : pfilter :=
    PFilter (fun y t k => s_initial_sample M t k)
            (fun x y t => xopp (s_likelihood_potential M x y t))
            (fun x0 t0 y1 t1 k => s_transition_sample M x0 t0 t1 k)
            (fun x0 t0 x1 y1 t1 => xopp (s_likelihood_potential M x1 y1 t1)).

  (** [random.categorical(key, logits, shape=(n,))] *)
  Variable categorical : key -> list xr -> nat -> list nat.
  Variable F : pfilter.

  (** An array of observations: with one row for each time, or flattened *)
  Inductive yarr : Type := Rows (l : list obs) | Flat (l : list R).
  Definition ravel (a : yarr) : list R := match a with Rows l => concat l | Flat l => l end.

  (** The particles: for each time a row of states and one of log weights, a
      time and an effective sample size *)
  Record particles : Type := Particles {
    value : list (list X);
    log_weight : list (list xr);
    times : list Tm;
    observed : yarr;
    ess : list xr }.

  Definition at_last {A} (l : list A) : option A := match rev l with a :: _ => Some a | [] => None end.
  Definition set_last {A} (l : list A) (a : A) : list A := removelast l ++ [a].

  (** 173-193 with 65-78 *)
  Definition initiate_particles (n : nat) (k : key) (y : obs) (t : Tm) : particles :=
    let vals := map (fun k => initial_sample F y t k) (split_keys k n 0 n) in
    let lw := map (fun x => initial_log_weight F x y t) vals in
    Particles [vals] [lw] [t] (Rows [y]) [ess_log_weight lw].

  (** 196-199 on one row *)
  Definition take (x : list X) (inds : list nat) : list X := map (fun i => nth i x dx) inds.
  Definition resample_row (x : list X) (lw : list xr) (k : key) : list X :=
    take x (categorical k lw (length x)).

  Definition zeros (n : nat) : list xr := repeat (Fin 0) n.

  (** 202-217 when log weights are recorded for each time *)
  Definition resample_particles (p : particles) (k : key) (resample_full : bool) : option particles :=
    match at_last (value p), at_last (log_weight p) with
    | Some xl, Some lw =>
        let n := length xl in
        let inds := categorical k lw n in
        let v := if resample_full then map (fun row => take row inds) (value p)
                 else set_last (value p) (take xl inds) in
        Some (Particles v (set_last (log_weight p) (zeros n)) (times p) (observed p) (ess p))
    | _, _ => None
    end.

  (** 124-139 *)
  Definition propose (x : list X) (t0 : Tm) (y : obs) (t1 : Tm) (ks : list key) : list X :=
    map (fun xk => proposal_sample F (fst xk) t0 y t1 (snd xk)) (combine x ks).
  Definition increments (x : list X) (t0 : Tm) (x' : list X) (y : obs) (t1 : Tm) : list xr :=
    map (fun xx => intermediate_log_weight F (fst xx) t0 (snd xx) y t1) (combine x x').
  Definition add_weights (a b : list xr) : list xr := map (fun ab => xadd (fst ab) (snd ab)) (combine a b).

  (** 220-252; line 249 appends the observation without an axis *)
  Definition propagate_particle_filter (p : particles) (y : obs) (t1 : Tm) (k : key)
    (thr : R) (resample_full : bool) : option particles :=
    match at_last (ess p), at_last (value p) with
    | Some e, Some xl =>
        let n := length xl in
        let q := if xltb e (Fin (thr * INR n)) then resample_particles p k resample_full else Some p in
        match q with
        | None => None
        | Some q =>
            match at_last (value q), at_last (log_weight q), at_last (times q) with
            | Some x0, Some lw0, Some t0 =>
                let x1 := propose x0 t0 y t1 (split_keys k n 0 n) in
                let lw1 := add_weights lw0 (increments x0 t0 x1 y t1) in
                Some (Particles (value q ++ [x1]) (log_weight q ++ [lw1]) (times q ++ [t1])
                                (Flat (ravel (observed q) ++ y)) (ess q ++ [ess_log_weight lw1]))
            | _, _, _ => None
            end
        end
    | _, _ => None
    end.

  (** 220-252 repeated, as in a user's loop over observations *)
  Fixpoint propagate_all (p : particles) (steps : list (obs * Tm * key)) (thr : R) (full : bool)
    : option (particles) :=
    match steps with
    | [] => Some p
    | (y, t, k) :: r =>
        match propagate_particle_filter p y t k thr full with
        | Some p' => propagate_all p' r thr full
        | None => None
        end
    end.

  (** * Marginals, 255-324 *)

  (** one time of a run: the carry of the scan *)
  Record marginal : Type := Marginal {
    m_value : list X; m_lw : list xr; m_t : Tm; m_y : obs; m_ess : xr }.

  (** 280-311 *)
  Definition filter_body (thr : R) (n : nat) (s : marginal) (y : obs) (t1 : Tm) (k : key) : marginal :=
    let res := xltb (m_ess s) (Fin (thr * INR n)) in
    let x0 := if res then resample_row (m_value s) (m_lw s) k else m_value s in
    let lw0 := if res then zeros n else m_lw s in
    let x1 := propose x0 (m_t s) y t1 (split_keys k (length (m_value s)) 0 (length (m_value s))) in
    let lw1 := add_weights lw0 (increments x0 (m_t s) x1 y t1) in
    Marginal x1 lw1 t1 y (ess_log_weight lw1).

  Fixpoint filter_scan (thr : R) (n : nat) (s : marginal) (yts : list (obs * Tm)) (ks : list key) : list marginal :=
    match yts, ks with
    | (y, t) :: yts', k :: ks' => let s' := filter_body thr n s y t k in s' :: filter_scan thr n s' yts' ks'
    | _, _ => []
    end.

  Definition last_marginal (p : particles) : option marginal :=
    match at_last (value p), at_last (log_weight p), at_last (times p), observed p, at_last (ess p) with
    | Some v, Some lw, Some t, Rows ys, Some e =>
        match at_last ys with Some y => Some (Marginal v lw t y e) | None => None end
    | _, _, _, _, _ => None
    end.

  (** 274-324, from an initial sample *)
  Definition run_from (p : particles) (ys : list obs) (ts : list Tm) (k : key) (thr : R) : option particles :=
    match last_marginal p, observed p with
    | Some s, Rows y0 =>
        let T := length ys in
        let ms := filter_scan thr (length (m_value s)) s (combine ys ts) (split_keys k T 0 T) in
        Some (Particles (value p ++ map m_value ms) (log_weight p ++ map m_lw ms) (times p ++ map m_t ms)
                        (Rows (y0 ++ map m_y ms)) (ess p ++ map m_ess ms))
    | _, _ => None
    end.

  (** 255-272 without an initial sample *)
  Definition run_particle_filter (n : nat) (ys : list obs) (ts : list Tm) (k : key) (thr : R) : option particles :=
    match ys, ts with
    | y0 :: ys', t0 :: ts' =>
        run_from (initiate_particles n (KSplit k 2 1) y0 t0) ys' ts' (KSplit k 2 0) thr
    | _, _ => None
    end.
End Filter.
Arguments smodel : clear implicits.
Arguments pfilter : clear implicits.
Arguments particles : clear implicits.
Arguments marginal : clear implicits.
