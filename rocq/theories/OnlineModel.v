(** Online fixed-lag particle smoothing, mocat/src/ssm/online_smoothing.py.

    Arrays with a leading time axis are lists of rows.  A static index past the
    end of an array reads its last entry, as indexing in jax does.  The lag is a
    natural number.  [None] is a raised exception. *)
From Coq Require Import Reals List Arith Bool.
From Verif Require Import XR Keys HmcModel WeightsModel SmcModel FilterModel BackModel.
Import ListNotations.
Open Scope R_scope.

(** [l[i]] *)
Definition nth_clamp {A} (i : nat) (l : list A) (d : A) : A := nth (Nat.min i (length l - 1)) l d.

Section Online.
  Context {X Tm : Type}.
  Variable dx : X.
  Variable dt : Tm.
  Variable transition_potential : X -> Tm -> X -> Tm -> xr.
  Variable categorical : key -> list xr -> nat -> list nat.
  Variable categorical1 : key -> list xr -> nat.
  Variable uniform : key -> R.
  Variable uniform_n : key -> nat -> list R.

  (** 21-30 *)
  Definition full_stitch_single (x0 : X) (t : Tm) (x1 : list X) (t1 : Tm) (lw : list xr) (k : key) : nat :=
    categorical1 k (map (fun lx => xsub (fst lx) (transition_potential x0 t (snd lx) t1)) (combine lw x1)).

  (** 33-41 *)
  Definition full_stitch (x0 : list X) (t : Tm) (x1 : list X) (t1 : Tm) (lw : list xr) (k : key) : list nat :=
    map (fun xk => full_stitch_single (fst xk) t x1 t1 lw (snd xk))
        (combine x0 (split_keys k (length x0) 0 (length x0))).

  (** 44-174: the loop of backward.py, on indices *)
  Definition rejection_stitching (x0 : list X) (t : Tm) (x1 : list X) (t1 : Tm) (lw : list xr) (k : key)
    (maxrej : nat) (init_bound inflation : R) : list nat * nat :=
    rejection (fun k => categorical1 k lw)
              (fun k n => categorical k lw n)
              (fun i a => xexp (xopp (transition_potential (nth i x0 dx) t (nth a x1 dx) t1)))
              (fun i k => full_stitch_single (nth i x0 dx) t x1 t1 lw k)
              uniform uniform_n inflation (length x1) (length x1) k maxrej init_bound.

  (** 192-194 *)
  Definition non_interacting (x0 : list X) (t : Tm) (x1 : list X) (t1 : Tm) (lw : list xr) : list xr :=
    map (fun lx => xadd (fst lx) (transition_potential (fst (snd lx)) t (snd (snd lx)) t1))
        (combine lw (combine x0 x1)).

  (** 177-208 *)
  Definition fixed_lag_stitching (early : list (list X)) (t : Tm) (recent : list (list X)) (lw : list xr) (t1 : Tm)
    (k : key) (maxrej : nat) (init_bound inflation : R) : option (list (list X) * nat) :=
    match at_last early, recent with
    | Some x0_fixed, x0_vary :: rest =>
        let x1_vary := nth_clamp 1 recent [] in
        let nlw := non_interacting x0_vary t x1_vary t1 lw in
        let r := if Nat.ltb 0 maxrej
                 then rejection_stitching x0_fixed t x1_vary t1 nlw k maxrej init_bound inflation
                 else (full_stitch x0_fixed t x1_vary t1 nlw k, (length x0_fixed * length x0_fixed)%nat) in
        Some (early ++ map (fun row => take dx row (fst r)) rest, snd r)
    | _, _ => None
    end.

  Variable F : pfilter X Tm.

  (** * Without backward simulation, 211-281

      [s_lw] is the last row of the log weights: the only one that is read. *)
  Record smoothed : Type := Smoothed {
    s_value : list (list X);
    s_lw : list xr;
    s_times : list Tm;
    s_obs : list obs;
    s_ess : xr;
    s_evals : list nat }.

  Definition smoother_pf (p : smoothed) (y : obs) (t1 : Tm) (k : key) (lag maxrej : nat) (init_bound inflation : R)
    : option smoothed :=
    match at_last (s_value p), at_last (s_times p) with
    | Some xl, Some t0 =>
        let n := length xl in
        (* 228-232 *)
        let inds := categorical k (s_lw p) n in
        let V := if xltb (ess_log_weight (s_lw p)) (Fin (INR n - / 1000))
                 then map (fun row => take dx row inds) (s_value p) else s_value p in
        (* 234-249 *)
        let x0 := last V [] in
        let x1 := propose F x0 t0 y t1 (split_keys k (length x0) 0 (length x0)) in
        let lw1 := increments F x0 t0 x1 y t1 in
        let V1 := V ++ [x1] in
        let ts := s_times p ++ [t1] in
        let ys := s_obs p ++ [y] in
        (* 251-281 *)
        if Nat.leb (lag + 1) (length ts) then
          let s := (length ts - lag - 1)%nat in
          match fixed_lag_stitching (firstn (s + 1) V1) (nth s ts dt) (skipn s V1) lw1
                  (nth_clamp (length ts - lag) ts dt) k maxrej init_bound inflation with
          | Some (v, e) => Some (Smoothed v (zeros n) ts ys (ess_log_weight lw1) (s_evals p ++ [e]))
          | None => None
          end
        else Some (Smoothed V1 lw1 ts ys (ess_log_weight lw1) (s_evals p ++ [0%nat]))
    | _, _ => None
    end.

  (** the first call, on what [initiate_particles] returns, 222-223 *)
  Definition smoothed_start (p : particles X Tm) : option smoothed :=
    match at_last (log_weight p), at_last (ess p), observed p with
    | Some lw, Some e, Rows ys => Some (Smoothed (value p) lw (times p) ys e [0%nat])
    | _, _, _ => None
    end.

  (** * With backward simulation, 284-366 *)
  Record bsmoothed : Type := BSmoothed {
    b_value : list (list X);
    b_times : list Tm;
    b_obs : list obs;
    b_filter : particles X Tm;
    b_lw : list xr;
    b_ess : xr;
    b_evals : list nat }.

  (** 297-306 *)
  Definition bsmoothed_start (p : particles X Tm) : option bsmoothed :=
    match at_last (log_weight p), at_last (ess p), observed p with
    | Some lw, Some e, Rows ys => Some (BSmoothed (value p) (times p) ys p lw e [0%nat])
    | _, _, _ => None
    end.

  Definition smoother_bs (p : bsmoothed) (y : obs) (t1 : Tm) (k : key) (lag : nat) (thr : R) (maxrej : nat)
    (init_bound inflation : R) : option bsmoothed :=
    match propagate_particle_filter dx categorical F (b_filter p) y t1 (KSplit k 4 1) thr false,
          at_last (b_value p) with
    | Some mf, Some xl =>
        let n := length xl in
        let ts := b_times p ++ [t1] in
        let back V W ts := backward_simulation dx transition_potential categorical categorical1 uniform uniform_n dt
                             V W ts (KSplit k 4 2) (Some n) maxrej init_bound inflation in
        let r :=
          if Nat.leb (lag + 1) (length ts) then
            let s := (length ts - lag - 1)%nat in
            match back (skipn s (value mf)) (skipn s (log_weight mf)) (skipn s (times mf)) with
            | Some (sim, evs) =>
                match fixed_lag_stitching (firstn (s + 1) (b_value p)) (nth s ts dt) sim (zeros n)
                        (nth_clamp (length ts - lag) ts dt) k maxrej init_bound inflation with
                | Some (v, e) => Some (v, (e + list_sum evs)%nat)
                | None => None
                end
            | None => None
            end
          else
            match back (value mf) (log_weight mf) (times mf) with
            | Some (sim, evs) => Some (sim, list_sum evs)
            | None => None
            end in
        match r, at_last (ess mf) with
        | Some (v, e), Some es =>
            Some (BSmoothed v ts (b_obs p ++ [y]) mf (zeros n) es (b_evals p ++ [e]))
        | _, _ => None
        end
    | _, _ => None
    end.

  (** 369-387 repeated, as in a user's loop over observations *)
  Fixpoint run_pf (p : smoothed) (steps : list (obs * Tm * key)) (lag maxrej : nat) (init_bound inflation : R)
    : option smoothed :=
    match steps with
    | [] => Some p
    | (y, t, k) :: r =>
        match smoother_pf p y t k lag maxrej init_bound inflation with
        | Some p' => run_pf p' r lag maxrej init_bound inflation
        | None => None
        end
    end.

  Fixpoint run_bs (p : bsmoothed) (steps : list (obs * Tm * key)) (lag : nat) (thr : R) (maxrej : nat)
    (init_bound inflation : R) : option bsmoothed :=
    match steps with
    | [] => Some p
    | (y, t, k) :: r =>
        match smoother_bs p y t k lag thr maxrej init_bound inflation with
        | Some p' => run_bs p' r lag thr maxrej init_bound inflation
        | None => None
        end
    end.
End Online.
