(** Property theorems C45, C66 (stitching), C68, C69, C70, C71: online smoothing. *)
From Coq Require Import Reals List Arith Bool Lia Lra.
From Verif Require Import XR Keys HmcModel WeightsModel WeightsSpec WeightsProofs McmcModel McmcSpec McmcProofs
  SmcModel SmcSpec SmcProofs SmcProps FilterModel FilterSpec FilterProofs FilterProps
  BackModel BackSpec BackProofs BackProps OnlineModel OnlineProofs.
Import ListNotations.
Open Scope R_scope.

(** [T] rows of [n] entries *)
Definition table {A} (n T : nat) (V : list (list A)) : Prop :=
  length V = T /\ forall s, (s < T)%nat -> length (nth s V []) = n.

(** C45.  One call of the stitching: the early block is kept, and trajectory [j]
    is continued with the states of one recent trajectory. *)
Theorem C45_stitching :
  forall (X Tm : Type) (dx : X) (pot : X -> Tm -> X -> Tm -> xr) categorical categorical1 uniform uniform_n
    (n s L : nat) (early : list (list X)) (t : Tm) (recent : list (list X)) (lw : list xr) (t1 : Tm) (k : key)
    (maxrej : nat) (init_bound inflation : R),
  categorical_n_ok categorical -> categorical1_ok categorical1 -> (forall k n, length (uniform_n k n) = n) ->
  (0 < n)%nat -> table n (S s) early -> table n (S L) recent -> length lw = n ->
  exists out ev,
  fixed_lag_stitching dx pot categorical categorical1 uniform uniform_n early t recent lw t1 k maxrej init_bound inflation
    = Some (out, ev)
  /\ table n (S s + L) out
  /\ (forall r, (r <= s)%nat -> nth r out [] = nth r early [])
  /\ (exists pick : nat -> nat, forall j, (j < n)%nat -> (pick j < n)%nat
        /\ forall r, (1 <= r <= L)%nat -> nth j (nth (s + r) out []) dx = nth (pick j) (nth r recent []) dx)
  /\ (ev <= n * Nat.max 1 maxrej + n * n)%nat.
Proof.
  intros X Tm dx pot cat cat1 unif unif_n n s L early t recent lw t1 k maxrej ib infl Hcat Hcat1 Hun Hn HE HR Hl.
  destruct (stitching_ok dx pot cat cat1 unif unif_n Hcat Hcat1 Hun n s L early t recent lw t1 k maxrej ib infl Hn HE HR Hl)
    as (inds & ev & E & Li & Hi & Hev & _).
  destruct HE as [LE HE], HR as [LR HR]. destruct recent as [|x0 rest]; [discriminate|]. cbn [tl] in *. cbn in LR.
  assert (N : forall r, (1 <= r <= L)%nat ->
    nth (s + r) (early ++ map (fun row => take dx row inds) rest) [] = take dx (nth r (x0 :: rest) []) inds).
  { intros r Hr. rewrite app_nth2 by lia. rewrite LE. replace (s + r - S s)%nat with (r - 1)%nat by lia.
    rewrite (nth_map_in _ _ _ []) by lia. destruct r; [lia|]. cbn [nth]. rewrite Nat.sub_1_r. reflexivity. }
  eexists _, ev. split; [exact E|]. split; [|split; [|split; [|exact Hev]]].
  - split; [rewrite app_length, map_length, LE; lia|]. intros r Hr. destruct (Nat.lt_ge_cases r (S s)) as [H|H].
    + rewrite app_nth1 by lia. apply HE, H.
    + replace r with (s + (r - s))%nat by lia. rewrite N by lia. rewrite take_length. exact Li.
  - intros r Hr. apply app_nth1. lia.
  - exists (fun j => nth j inds 0%nat). intros j Hj. split; [apply Hi, Hj|].
    intros r Hr. rewrite N by exact Hr. apply take_nth. lia.
Qed.
Print Assumptions C45_stitching.

(** C45 over whole runs, with backward simulation: once a row is [lag] times old
    no later update changes it. *)
Theorem C45_backward_run :
  forall (X Tm : Type) (dx : X) (dt : Tm) (pot : X -> Tm -> X -> Tm -> xr) categorical categorical1 uniform uniform_n
    (F : pfilter X Tm) (n : nat) (k0 : key) (y0 : obs) (t0 : Tm) (steps steps' : list (obs * Tm * key))
    (lag : nat) (thr : R) (maxrej : nat) (init_bound inflation : R),
  categorical_n_ok categorical -> categorical1_ok categorical1 -> (forall k n, length (uniform_n k n) = n) ->
  (0 < n)%nat -> (0 < lag)%nat ->
  exists start p p',
  bsmoothed_start (initiate_particles F n k0 y0 t0) = Some start
  /\ run_bs dx dt pot categorical categorical1 uniform uniform_n F start steps lag thr maxrej init_bound inflation = Some p
  /\ run_bs dx dt pot categorical categorical1 uniform uniform_n F start (steps ++ steps') lag thr maxrej init_bound inflation
     = Some p'
  /\ table n (S (length steps)) (b_value p)
  /\ table n (S (length steps + length steps')) (b_value p')
  /\ forall r, (r + lag <= S (length steps))%nat -> nth r (b_value p') [] = nth r (b_value p) [].
Proof.
  intros X Tm dx dt pot cat cat1 unif unif_n F n k0 y0 t0 steps steps' lag thr maxrej ib infl Hcat Hcat1 Hun Hn Hlag.
  destruct (initiate_ok dx F n k0 y0 t0 dt) as (Sh & Et & _).
  set (q := initiate_particles F n k0 y0 t0) in *.
  set (start := BSmoothed (value q) (times q) [y0] q (nth 0 (log_weight q) []) (nth 0 (ess q) NaN) [0%nat]).
  assert (S0 : bshape n 1 start).
  { destruct Sh as (L1 & F1 & Sh). split; [apply rows_Forall; assumption|]. split; [apply Sh|].
    exact (conj L1 (conj F1 Sh)). }
  destruct (run_bs_ok dx dt pot cat cat1 unif unif_n Hcat Hcat1 Hun F (categorical_n_all _ Hcat) n lag thr maxrej ib infl
    Hn Hlag steps 0 start S0) as (p & E & Sp & _).
  replace (length steps + 1)%nat with (S (length steps)) in Sp by lia.
  destruct (run_bs_ok dx dt pot cat cat1 unif unif_n Hcat Hcat1 Hun F (categorical_n_all _ Hcat) n lag thr maxrej ib infl
    Hn Hlag steps' (length steps) p Sp) as (p' & E' & Sp' & _ & _ & Fz).
  exists start, p, p'. split; [reflexivity|]. split; [exact E|]. split.
  { clear -E E'. revert E. generalize start as st. induction steps as [|[[y t] k] steps IH]; intros st E; cbn in *.
    - injection E as ->. exact E'.
    - destruct (smoother_bs dx dt pot cat cat1 unif unif_n F st y t k lag thr maxrej ib infl); [|discriminate].
      apply IH, E. }
  split; [apply Sp|]. split; [|exact Fz].
  replace (S (length steps + length steps')) with (length steps' + S (length steps))%nat by lia. apply Sp'.
Qed.
Print Assumptions C45_backward_run.

(** C45, one update with backward simulation on [T + 1] rows, [lag <= T + 1]: old
    rows up to the lag are kept, and what follows trajectory [j] is one
    trajectory of the backward simulation of the last [lag + 1] filter rows. *)
Theorem C45_backward_step :
  forall (X Tm : Type) (dx : X) (dt : Tm) (pot : X -> Tm -> X -> Tm -> xr) categorical categorical1 uniform uniform_n
    (F : pfilter X Tm) (n T : nat) (p : bsmoothed) (y : obs) (t1 : Tm) (k : key)
    (lag : nat) (thr : R) (maxrej : nat) (init_bound inflation : R),
  categorical_n_ok categorical -> categorical1_ok categorical1 -> (forall k n, length (uniform_n k n) = n) ->
  (0 < n)%nat -> (0 < lag <= S T)%nat ->
  table n (S T) (b_value p) -> length (b_times p) = S T ->
  length (value (b_filter p)) = S T -> Forall (fun r => length r = n) (value (b_filter p)) ->
  length (log_weight (b_filter p)) = S T -> Forall (fun r => length r = n) (log_weight (b_filter p)) ->
  length (times (b_filter p)) = S T -> length (ess (b_filter p)) = S T ->
  exists p' mf sim evs,
  smoother_bs dx dt pot categorical categorical1 uniform uniform_n F p y t1 k lag thr maxrej init_bound inflation = Some p'
  /\ propagate_particle_filter dx categorical F (b_filter p) y t1 (KSplit k 4 1) thr false = Some mf
  /\ (let s := (S T - lag)%nat in
      backward_simulation dx pot categorical categorical1 uniform uniform_n dt
        (skipn s (value mf)) (skipn s (log_weight mf)) (skipn s (times mf)) (KSplit k 4 2) (Some n)
        maxrej init_bound inflation = Some (sim, evs))
  /\ table n (S (S T)) (b_value p') /\ table n (S lag) sim
  /\ b_times p' = b_times p ++ [t1] /\ b_obs p' = b_obs p ++ [y]
  /\ (forall r, (r <= S T - lag)%nat -> nth r (b_value p') [] = nth r (b_value p) [])
  /\ exists pick : nat -> nat, forall j, (j < n)%nat -> (pick j < n)%nat
     /\ forall r, (1 <= r <= lag)%nat ->
        nth j (nth (S T - lag + r) (b_value p') []) dx = nth (pick j) (nth r sim []) dx.
Proof.
  intros X Tm dx dt pot cat cat1 unif unif_n F n T p y t1 k lag thr maxrej ib infl Hcat Hcat1 Hun Hn Hlag
    HV Ht H1 H2 H3 H4 H5 H6.
  destruct (smoother_bs_ok dx dt pot cat cat1 unif unif_n Hcat Hcat1 Hun F (categorical_n_all _ Hcat) n T p y t1 k lag
    thr maxrej ib infl Hn ltac:(lia) (conj HV (conj Ht (conj H1 (conj H2 (conj H3 (conj H4 (conj H5 H6)))))))) as
    (p' & E & Sh & Et & Eo & _ & Em & sim & evs & Es & _ & Hst).
  destruct (Hst ltac:(lia)) as (Rs & inds & Li & Hi & EV).
  exists p', (b_filter p'), sim, evs. split; [exact E|]. split; [exact Em|].
  replace (S (S T) - lag - 1)%nat with (S T - lag)%nat in Es by lia.
  split; [exact Es|]. split; [apply Sh|]. split; [exact Rs|]. split; [exact Et|]. split; [exact Eo|].
  destruct HV as [LV HV]. rewrite EV.
  assert (Lf : length (firstn (S T - lag + 1) (b_value p)) = (S T - lag + 1)%nat) by (rewrite firstn_length; lia).
  split.
  - intros r Hr. rewrite app_nth1 by lia. apply nth_firstn'. lia.
  - exists (fun j => nth j inds 0%nat). intros j Hj. split; [apply Hi, Hj|]. intros r Hr.
    rewrite app_nth2 by lia. rewrite Lf. replace (S T - lag + r - (S T - lag + 1))%nat with (r - 1)%nat by lia.
    destruct Rs as [Ls _]. destruct sim as [|x0 sim]; [discriminate|]. cbn in Ls. cbn [tl].
    rewrite (nth_map_in _ _ _ []) by lia. destruct r; [lia|]. cbn [nth]. rewrite Nat.sub_1_r. cbn [Nat.pred].
    apply take_nth. lia.
Qed.
Print Assumptions C45_backward_step.

(** C45 over whole runs, without backward simulation: once the lag is reached the
    weights are equal and old rows stay. *)
Theorem C45_filter_run :
  forall (X Tm : Type) (dx : X) (dt : Tm) (pot : X -> Tm -> X -> Tm -> xr) categorical categorical1 uniform uniform_n
    (F : pfilter X Tm) (n : nat) (k0 : key) (y0 : obs) (t0 : Tm) (steps steps' : list (obs * Tm * key))
    (lag : nat) (maxrej : nat) (init_bound inflation : R),
  categorical_n_ok categorical -> categorical1_ok categorical1 -> (forall k n, length (uniform_n k n) = n) ->
  (0 < n)%nat -> (0 < lag)%nat ->
  exists start p p',
  smoothed_start (initiate_particles F n k0 y0 t0) = Some start
  /\ run_pf dx dt pot categorical categorical1 uniform uniform_n F start steps lag maxrej init_bound inflation = Some p
  /\ run_pf dx dt pot categorical categorical1 uniform uniform_n F start (steps ++ steps') lag maxrej init_bound inflation
     = Some p'
  /\ table n (S (length steps)) (s_value p)
  /\ table n (S (length steps + length steps')) (s_value p')
  /\ ((lag <= length steps)%nat -> s_lw p = repeat (Fin 0) n)
  /\ forall r, (r + lag <= length steps)%nat -> nth r (s_value p') [] = nth r (s_value p) [].
Proof.
  intros X Tm dx dt pot cat cat1 unif unif_n F n k0 y0 t0 steps steps' lag maxrej ib infl Hcat Hcat1 Hun Hn Hlag.
  destruct (initiate_ok dx F n k0 y0 t0 dt) as (Sh & Et & _).
  set (q := initiate_particles F n k0 y0 t0) in *.
  set (start := Smoothed (value q) (nth 0 (log_weight q) []) (times q) [y0] (nth 0 (ess q) NaN) [0%nat]).
  assert (S0 : pshape n 1 start).
  { destruct Sh as (L1 & F1 & L2 & F2 & L3 & _). split; [apply rows_Forall; assumption|]. split; [exact L3|].
    apply (rows_Forall n 1 _ L2 F2). lia. }
  destruct (run_pf_ok dx dt pot cat cat1 unif unif_n Hcat Hcat1 Hun F n lag maxrej ib infl
    Hn Hlag steps 0 start S0) as (p & E & Sp & Z & _); [intros; lia|].
  replace (length steps + 1)%nat with (S (length steps)) in Sp by lia.
  rewrite Nat.add_0_r in Z.
  destruct (run_pf_ok dx dt pot cat cat1 unif unif_n Hcat Hcat1 Hun F n lag maxrej ib infl
    Hn Hlag steps' (length steps) p Sp Z) as (p' & E' & Sp' & _ & _ & _ & Fz).
  exists start, p, p'. split; [reflexivity|]. split; [exact E|]. split.
  { clear -E E'. revert E. generalize start as st. induction steps as [|[[y t] k] steps IH]; intros st E; cbn in *.
    - injection E as ->. exact E'.
    - destruct (smoother_pf dx dt pot cat cat1 unif unif_n F st y t k lag maxrej ib infl); [|discriminate].
      apply IH, E. }
  split; [apply Sp|]. split; [|split; [exact Z|exact Fz]].
  replace (S (length steps + length steps')) with (length steps' + S (length steps))%nat by lia. apply Sp'.
Qed.
Print Assumptions C45_filter_run.

(** C45, one update without backward simulation, [lag <= T + 1]: each trajectory
    is up to the lag one that was recorded (itself when the weights are equal),
    and continues as one of the extended trajectories, recorded up to now and
    proposed from there. *)
Theorem C45_filter_step :
  forall (X Tm : Type) (dx : X) (dt : Tm) (pot : X -> Tm -> X -> Tm -> xr) categorical categorical1 uniform uniform_n
    (F : pfilter X Tm) (n T : nat) (p : smoothed) (y : obs) (t1 : Tm) (k : key)
    (lag maxrej : nat) (init_bound inflation : R),
  categorical_n_ok categorical -> categorical1_ok categorical1 -> (forall k n, length (uniform_n k n) = n) ->
  (0 < n)%nat -> (0 < lag <= S T)%nat ->
  table n (S T) (s_value p) -> length (s_times p) = S T -> length (s_lw p) = n ->
  exists p' (anc pick : nat -> nat),
  smoother_pf dx dt pot categorical categorical1 uniform uniform_n F p y t1 k lag maxrej init_bound inflation = Some p'
  /\ table n (S (S T)) (s_value p') /\ s_lw p' = repeat (Fin 0) n
  /\ s_times p' = s_times p ++ [t1] /\ s_obs p' = s_obs p ++ [y]
  /\ (s_lw p = repeat (Fin 0) n -> forall j, anc j = j)
  /\ forall j, (j < n)%nat -> (anc j < n)%nat /\ (pick j < n)%nat
     /\ (forall r, (r <= S T - lag)%nat -> nth j (nth r (s_value p') []) dx = nth (anc j) (nth r (s_value p) []) dx)
     /\ (forall r, (S T - lag < r <= T)%nat ->
           nth j (nth r (s_value p') []) dx = nth (anc (pick j)) (nth r (s_value p) []) dx)
     /\ nth j (nth (S T) (s_value p') []) dx
        = proposal_sample F (nth (anc (pick j)) (nth T (s_value p) []) dx) (nth T (s_times p) dt) y t1 (KSplit k n (pick j)).
Proof.
  intros X Tm dx dt pot cat cat1 unif unif_n F n T p y t1 k lag maxrej ib infl Hcat Hcat1 Hun Hn Hlag HV Ht Hl.
  destruct (smoother_pf_ok dx dt pot cat cat1 unif unif_n Hcat Hcat1 Hun F n T p y t1 k lag
    maxrej ib infl Hn ltac:(lia) (conj HV (conj Ht Hl)))
    as (p' & E & Sh & Et & Eo & anc & V1 & Ha & Hz & ((L1 & R1) & X1 & X2) & _ & Hst).
  destruct (Hst ltac:(lia)) as (Hlw & inds & Li & Hi & EV).
  exists p', anc, (fun j => nth j inds 0%nat). split; [exact E|]. split; [apply Sh|]. split; [exact Hlw|].
  split; [exact Et|]. split; [exact Eo|]. split; [exact Hz|].
  intros j Hj. split; [apply Ha, Hj|]. split; [apply Hi, Hj|]. rewrite EV.
  assert (Lf : length (firstn (S T - lag + 1) V1) = (S T - lag + 1)%nat) by (rewrite firstn_length; lia).
  assert (N : forall r, (S T - lag < r <= S T)%nat ->
    nth j (nth r (firstn (S T - lag + 1) V1 ++ map (fun row => take dx row inds) (skipn (S T - lag + 1) V1)) []) dx
    = nth (nth j inds 0%nat) (nth r V1 []) dx).
  { intros r Hr. rewrite app_nth2 by lia. rewrite Lf. rewrite (nth_map_in _ _ _ []) by (rewrite skipn_length; lia).
    rewrite nth_skipn'. replace (S T - lag + 1 + (r - (S T - lag + 1)))%nat with r by lia. apply take_nth. lia. }
  split; [|split].
  - intros r Hr. rewrite app_nth1 by lia. rewrite nth_firstn' by lia. apply X1; lia.
  - intros r Hr. rewrite N by lia. apply X1; [lia|apply Hi, Hj].
  - rewrite N by lia. apply X2, Hi, Hj.
Qed.
Print Assumptions C45_filter_step.

(** Four particles of a walk, lag 1. *)
Example C45_example :
  exists start p p',
  smoothed_start (initiate_particles (bootstrap walk_model) 4 (KRoot 0) [0] 0) = Some start
  /\ run_pf 0 0 (s_transition_potential walk_model) cat_n_first cat1_first (fun _ => / 2) halves (bootstrap walk_model)
       start [([1], 1, KRoot 1); ([2], 2, KRoot 2)] 1 0 0 1 = Some p
  /\ run_pf 0 0 (s_transition_potential walk_model) cat_n_first cat1_first (fun _ => / 2) halves (bootstrap walk_model)
       start [([1], 1, KRoot 1); ([2], 2, KRoot 2); ([0], 3, KRoot 3)] 1 0 0 1 = Some p'
  /\ nth 1 (s_value p') [] = nth 1 (s_value p) [] /\ length (nth 1 (s_value p) []) = 4%nat.
Proof.
  destruct (C45_filter_run R R 0 0 (s_transition_potential walk_model) cat_n_first cat1_first (fun _ => / 2) halves
    (bootstrap walk_model) 4 (KRoot 0) [0] 0 [([1], 1, KRoot 1); ([2], 2, KRoot 2)] [([0], 3, KRoot 3)] 1 0 0 1
    cat_n_first_ok cat1_first_ok halves_length ltac:(lia) ltac:(lia)) as (start & p & p' & E0 & E & E' & [_ T1] & _ & _ & H).
  exists start, p, p'. split; [exact E0|]. split; [exact E|]. split; [exact E'|].
  split; [apply H; cbn; lia|apply T1; cbn; lia].
Qed.

(** C68.  Stitching without rejection: trajectory [j] takes the recent trajectory
    whose index is drawn from the recent weights times the transition density
    from the end of the early block, divided by the one they were drawn with. *)
Theorem C68_stitching_weights :
  forall (X Tm : Type) (dx : X) (pot : X -> Tm -> X -> Tm -> xr) categorical categorical1 uniform uniform_n
    (n s L : nat) (early : list (list X)) (t : Tm) (recent : list (list X)) (lw : list xr) (t1 : Tm) (k : key)
    (init_bound inflation : R),
  categorical_n_ok categorical -> categorical1_ok categorical1 -> (forall k n, length (uniform_n k n) = n) ->
  (0 < n)%nat -> table n (S s) early -> table n (S (S L)) recent -> length lw = n ->
  exists out ev (pick : nat -> nat) (lw' : nat -> list xr),
  fixed_lag_stitching dx pot categorical categorical1 uniform uniform_n early t recent lw t1 k 0 init_bound inflation
    = Some (out, ev)
  /\ forall j, (j < n)%nat ->
     (forall r, (1 <= r <= S L)%nat -> nth j (nth (s + r) out []) dx = nth (pick j) (nth r recent []) dx)
     /\ pick j = categorical1 (KSplit k n j) (lw' j) /\ length (lw' j) = n
     /\ (forall i, (i < n)%nat ->
         let from := pot (nth i (nth 0 recent []) dx) t (nth i (nth 1 recent []) dx) t1 in
         let to := pot (nth j (nth s early []) dx) t (nth i (nth 1 recent []) dx) t1 in
         (finite (nth i lw NaN) \/ nth i lw NaN = NInf) -> finite from -> potential_value to ->
         weight (nth i (lw' j) NaN) * density from = weight (nth i lw NaN) * density to).
Proof.
  intros X Tm dx pot cat cat1 unif unif_n n s L early t recent lw t1 k ib infl Hcat Hcat1 Hun Hn HE HR Hl.
  destruct (stitching_ok dx pot cat cat1 unif unif_n Hcat Hcat1 Hun n s (S L) early t recent lw t1 k 0 ib infl Hn HE HR Hl)
    as (inds & ev & E & Li & Hi & _ & Hf).
  destruct HE as [LE HE], HR as [LR HR]. destruct recent as [|x0 [|x1 rest]]; try discriminate. cbn [tl] in *. cbn in LR.
  assert (Lx0 : length x0 = n) by (apply (HR 0%nat); lia). assert (Lx1 : length x1 = n) by (apply (HR 1%nat); lia).
  change (nth_clamp 1 (x0 :: x1 :: rest) []) with x1 in Hf. cbn [nth] in *.
  set (nlw := non_interacting pot x0 t x1 t1 lw) in *.
  assert (Lw : length nlw = n) by (apply non_interacting_length; assumption).
  eexists _, ev, (fun j => nth j inds 0%nat),
    (fun j => map (fun lx => xsub (fst lx) (pot (nth j (nth s early []) dx) t (snd lx) t1)) (combine nlw x1)).
  split; [exact E|]. intros j Hj. split; [|split; [|split]].
  - intros r Hr. rewrite app_nth2 by lia. rewrite LE. replace (s + r - S s)%nat with (r - 1)%nat by lia.
    rewrite (nth_map_in _ _ _ []) by (cbn; lia). destruct r; [lia|]. cbn [nth]. rewrite Nat.sub_1_r. cbn [Nat.pred].
    apply take_nth. lia.
  - exact (Hf eq_refl j Hj).
  - rewrite map_length, combine_length. lia.
  - intros i Hin Hlw Hfrom Hto.
    rewrite (nth_map_in _ _ i (NaN, dx)) by (rewrite combine_length; lia). rewrite combine_nth by lia. cbn [fst snd].
    unfold nlw. rewrite (non_interacting_nth dx pot x0 t x1 t1 lw n i) by assumption.
    set (from := pot (nth i x0 dx) t (nth i x1 dx) t1) in *.
    set (to := pot (nth j (nth s early []) dx) t (nth i x1 dx) t1) in *. clearbody from to.
    destruct Hfrom as [a ->]. destruct Hlw as [[w ->]| ->]; destruct Hto as [[c ->]| ->]; cbn; try ring.
    rewrite <- !exp_plus. f_equal. ring.
Qed.
Print Assumptions C68_stitching_weights.

Example C68_example :
  table 2 1 [[0; 5]] /\ table 2 2 [[1; 2]; [3; 4]] /\
  exists out ev,
  fixed_lag_stitching 0 (s_transition_potential walk_model) cat_n_first cat1_first (fun _ => / 2) halves
    [[0; 5]] 0 [[1; 2]; [3; 4]] [Fin 0; Fin 1] 1 (KRoot 0) 0 0 1 = Some (out, ev) /\ out = [[0; 5]; [3; 3]].
Proof.
  split; [split; [reflexivity|]; intros [|s] H; [reflexivity|lia]|].
  split; [split; [reflexivity|]; intros [|[|s]] H; [reflexivity..|lia]|].
  eexists _, _. split; [reflexivity|]. reflexivity.
Qed.

(** C66 for stitching: the same invariant, for the indices of recent
    trajectories. *)
Theorem C66_stitching :
  forall (X Tm : Type) (dx : X) pot categorical categorical1 uniform uniform_n
    (x0 : list X) (t : Tm) (x1 : list X) (t1 : Tm) (lw : list xr) (k : key)
    (maxrej : nat) (init_bound inflation : R),
  categorical_n_ok categorical -> (forall k n, length (uniform_n k n) = n) ->
  (forall x t x' t', potential_value (pot x t x' t')) ->
  lw <> [] -> x1 <> [] -> 1 <= inflation -> 0 <= init_bound ->
  let n := length x1 in
  let first j := nth j (categorical (KSplit k 3 0) lw n) 0%nat in
  (0 < init_bound \/ exists j, (j < n)%nat /\ finite (pot (nth j x0 dx) t (nth (first j) x1 dx) t1)) ->
  let r := fst (rejection_stitching dx pot categorical categorical1 uniform uniform_n x0 t x1 t1 lw k
                  maxrej init_bound inflation) in
  length r = n
  /\ exists b, 0 < b /\ init_bound <= b /\ forall j, (j < n)%nat ->
     let d := density (pot (nth j x0 dx) t (nth (nth j r 0%nat) x1 dx) t1) in
     (exists u, d <= b /\ u <= d / b
        /\ ((nth j r 0%nat = first j /\ u = nth j (uniform_n (KSplit k 3 1) n) 0)
            \/ exists k', derived (KSplit (KSplit k 3 2) n j) k'
               /\ nth j r 0%nat = categorical1 (KSplit k' 3 1) lw /\ u = uniform (KSplit k' 3 2)))
     \/ exists k' lw', derived (KSplit (KSplit k 3 2) n j) k'
        /\ nth j r 0%nat = categorical1 k' lw'
        /\ length lw' = Nat.min (length lw) n
        /\ forall i, (i < length lw')%nat ->
           nth i lw' NaN = xsub (nth i lw NaN) (pot (nth j x0 dx) t (nth i x1 dx) t1).
Proof.
  intros X Tm dx pot cat cat1 unif unif_n x0 t x1 t1 lw k maxrej ib infl Hcat Hun Hpot Hlw Hx1 Hinfl Hib n first Hpos r.
  assert (Hn : (0 < n)%nat) by (unfold n; destruct x1; [congruence|cbn; lia]).
  assert (Hd : forall j a, xexp (xopp (pot (nth j x0 dx) t (nth a x1 dx) t1)) = Fin (density (pot (nth j x0 dx) t (nth a x1 dx) t1))
                           /\ 0 <= density (pot (nth j x0 dx) t (nth a x1 dx) t1)
                           /\ (finite (pot (nth j x0 dx) t (nth a x1 dx) t1) -> 0 < density (pot (nth j x0 dx) t (nth a x1 dx) t1))).
  { intros j a. destruct (Hpot (nth j x0 dx) t (nth a x1 dx) t1) as [[q ->]| ->]; cbn.
    - split; [reflexivity|]. assert (H := exp_pos (- q)). split; [lra|]. intros _. exact H.
    - split; [reflexivity|]. split; [lra|]. intros [q Hq]. discriminate. }
  destruct (Hcat (KSplit k 3 0) lw n) as (Lc & _); [intros; congruence|].
  destruct (rejection_ok 0%nat (fun k => cat1 k lw) (fun k n => cat k lw n)
    (fun i a => xexp (xopp (pot (nth i x0 dx) t (nth a x1 dx) t1)))
    (fun i k => full_stitch_single pot cat1 (nth i x0 dx) t x1 t1 lw k) unif unif_n infl Hinfl)
    with (n := n) (n0 := length x1) (k := k) (maxrej := maxrej) (init_bound := ib)
    as (A1 & _ & b & Hb & Hbb & A2).
  { intros i a. destruct (Hd i a) as (E & H & _). eexists. split; [exact E|exact H]. }
  { exact Hn. } { exact Lc. } { apply Hun. } { exact Hib. }
  { destruct Hpos as [H|(j & Hj & Hf)]; [left; exact H|right]. eexists j, _.
    split; [exact Hj|]. split; [apply Hd|apply Hd, Hf]. }
  unfold rejection_stitching in r. fold n in r. fold n in A1, A2. fold r in A1, A2. split; [exact A1|].
  exists b. split; [exact Hb|]. split; [exact Hbb|]. intros j Hj. cbv zeta.
  destruct (A2 j Hj) as [(u & Hs & (d & Ed & Hdb & Hu))|(k' & Hk & Ef)].
  - left. exists u. destruct (Hd j (nth j r 0%nat)) as (E & _). rewrite E in Ed. injection Ed as <-.
    split; [exact Hdb|]. split; [exact Hu|].
    destruct Hs as [[E1 E2]|(k' & Hk & E1 & E2)].
    + left. split; [exact E1|exact E2].
    + right. exists k'. split; [exact Hk|]. split; [exact E1|exact E2].
  - right. unfold full_stitch_single in Ef.
    eexists k', _. split; [exact Hk|]. split; [exact Ef|]. rewrite map_length, combine_length. split; [reflexivity|].
    intros i Hi. rewrite (nth_map_in _ _ i (NaN, dx)) by (rewrite combine_length; exact Hi).
    assert (N : forall (l : list xr) (m : list X) i, (i < Nat.min (length l) (length m))%nat ->
      nth i (combine l m) (NaN, dx) = (nth i l NaN, nth i m dx)).
    { induction l as [|a l IH]; intros [|c m] [|i'] H; cbn in *; try lia; [reflexivity|apply IH; lia]. }
    rewrite N by exact Hi. reflexivity.
Qed.
Print Assumptions C66_stitching.

(** Two early states 1 and 2, two recent ones 3 and 0. *)
Example C66_stitching_example :
  (forall x t x' t', potential_value (up_pot x t x' t'))
  /\ finite (up_pot (nth 0 [1; 2] 0) 0 (nth (nth 0 (cat_n_first (KSplit (KRoot 0) 3 0) [Fin 0; Fin 1] 2) 0) [3; 0] 0) 1)%nat
  /\ length (fst (rejection_stitching 0%nat up_pot cat_n_first cat1_first (fun _ => / 2) halves [1; 2]%nat 0%nat [3; 0]%nat
       1%nat [Fin 0; Fin 1] (KRoot 0) 5 0 (101 / 100))) = 2%nat.
Proof.
  split; [exact up_pot_ok|]. split; [eexists; reflexivity|].
  destruct (C66_stitching nat nat 0%nat up_pot cat_n_first cat1_first (fun _ => / 2) halves [1; 2]%nat 0%nat [3; 0]%nat 1%nat
    [Fin 0; Fin 1] (KRoot 0) 5 0 (101 / 100) cat_n_first_ok halves_length up_pot_ok) as (L & _);
    try discriminate; try lra; [|exact L].
  right. exists 0%nat. split; [cbn; lia|]. eexists. reflexivity.
Qed.

(** C69, positive lag: after any number of updates there is one row of states for
    every time. *)
Theorem C69_rows_partial :
  forall (X Tm : Type) (dx : X) (dt : Tm) (pot : X -> Tm -> X -> Tm -> xr) categorical categorical1 uniform uniform_n
    (F : pfilter X Tm) (n : nat) (k0 : key) (y0 : obs) (t0 : Tm) (steps : list (obs * Tm * key))
    (lag : nat) (thr : R) (maxrej : nat) (init_bound inflation : R),
  categorical_n_ok categorical -> categorical1_ok categorical1 -> (forall k n, length (uniform_n k n) = n) ->
  (0 < n)%nat -> (0 < lag)%nat ->
  let ts := t0 :: map (fun x => snd (fst x)) steps in
  let ys := y0 :: map (fun x => fst (fst x)) steps in
  (exists start p, bsmoothed_start (initiate_particles F n k0 y0 t0) = Some start
    /\ run_bs dx dt pot categorical categorical1 uniform uniform_n F start steps lag thr maxrej init_bound inflation = Some p
    /\ b_times p = ts /\ b_obs p = ys /\ table n (length ts) (b_value p))
  /\ exists start p, smoothed_start (initiate_particles F n k0 y0 t0) = Some start
    /\ run_pf dx dt pot categorical categorical1 uniform uniform_n F start steps lag maxrej init_bound inflation = Some p
    /\ s_times p = ts /\ s_obs p = ys /\ table n (length ts) (s_value p).
Proof.
  intros X Tm dx dt pot cat cat1 unif unif_n F n k0 y0 t0 steps lag thr maxrej ib infl Hcat Hcat1 Hun Hn Hlag ts ys.
  destruct (initiate_ok dx F n k0 y0 t0 dt) as (Sh & Et & _).
  set (q := initiate_particles F n k0 y0 t0) in *.
  assert (Lt : length ts = S (length steps)) by (unfold ts; cbn; rewrite map_length; reflexivity). rewrite Lt.
  split.
  - set (start := BSmoothed (value q) (times q) [y0] q (nth 0 (log_weight q) []) (nth 0 (ess q) NaN) [0%nat]).
    assert (S0 : bshape n 1 start).
    { destruct Sh as (L1 & F1 & Sh). split; [apply rows_Forall; assumption|]. split; [apply Sh|].
      exact (conj L1 (conj F1 Sh)). }
    destruct (run_bs_ok dx dt pot cat cat1 unif unif_n Hcat Hcat1 Hun F (categorical_n_all _ Hcat) n lag thr maxrej ib infl
      Hn Hlag steps 0 start S0) as (p & E & Sp & T' & O' & _).
    exists start, p. split; [reflexivity|]. split; [exact E|]. split; [exact T'|]. split; [exact O'|].
    replace (S (length steps)) with (length steps + 1)%nat by lia. apply Sp.
  - set (start := Smoothed (value q) (nth 0 (log_weight q) []) (times q) [y0] (nth 0 (ess q) NaN) [0%nat]).
    assert (S0 : pshape n 1 start).
    { destruct Sh as (L1 & F1 & L2 & F2 & L3 & _). split; [apply rows_Forall; assumption|]. split; [exact L3|].
      apply (rows_Forall n 1 _ L2 F2). lia. }
    destruct (run_pf_ok dx dt pot cat cat1 unif unif_n Hcat Hcat1 Hun F n lag maxrej ib infl
      Hn Hlag steps 0 start S0) as (p & E & Sp & _ & T' & O' & _); [intros; lia|].
    exists start, p. split; [reflexivity|]. split; [exact E|]. split; [exact T'|]. split; [exact O'|].
    replace (S (length steps)) with (length steps + 1)%nat by lia. apply Sp.
Qed.
Print Assumptions C69_rows_partial.

Example C69_example :
  exists start p,
  bsmoothed_start (initiate_particles (bootstrap walk_model) 3 (KRoot 0) [0] 0) = Some start
  /\ run_bs 0 0 (s_transition_potential walk_model) cat_n_first cat1_first (fun _ => / 2) halves (bootstrap walk_model)
       start [([1], 1, KRoot 1); ([2], 2, KRoot 2)] 1 (1 / 2) 7 0 1 = Some p
  /\ b_times p = [0; 1; 2] /\ length (b_value p) = 3%nat.
Proof.
  destruct (C69_rows_partial R R 0 0 (s_transition_potential walk_model) cat_n_first cat1_first (fun _ => / 2) halves
    (bootstrap walk_model) 3 (KRoot 0) [0] 0 [([1], 1, KRoot 1); ([2], 2, KRoot 2)] 1 (1 / 2) 7 0 1
    cat_n_first_ok cat1_first_ok halves_length ltac:(lia) ltac:(lia)) as [(start & p & E0 & E & T & _ & [L _]) _].
  exists start, p. split; [exact E0|]. split; [exact E|]. split; [exact T|exact L].
Qed.

(** C69, lag 0 with backward simulation: the update records a time but no row.
    The statement is for every model, filter and draw. *)
Theorem C69_lag_zero_refuted :
  forall (X Tm : Type) (dx : X) (dt : Tm) (pot : X -> Tm -> X -> Tm -> xr) categorical categorical1 uniform uniform_n
    (F : pfilter X Tm) (n : nat) (k0 : key) (y0 : obs) (t0 : Tm) (y1 : obs) (t1 : Tm) (k1 : key)
    (thr : R) (maxrej : nat) (init_bound inflation : R),
  categorical_n_ok categorical -> categorical1_ok categorical1 -> (forall k n, length (uniform_n k n) = n) ->
  (0 < n)%nat ->
  exists start p, bsmoothed_start (initiate_particles F n k0 y0 t0) = Some start
  /\ smoother_bs dx dt pot categorical categorical1 uniform uniform_n F start y1 t1 k1 0 thr maxrej init_bound inflation = Some p
  /\ b_times p = [t0; t1] /\ b_value p = b_value start /\ length (b_value p) = 1%nat.
Proof.
  intros X Tm dx dt pot cat cat1 unif unif_n F n k0 y0 t0 y1 t1 k1 thr maxrej ib infl Hcat Hcat1 Hun Hn.
  destruct (initiate_ok dx F n k0 y0 t0 dt) as (Sh & Et & _).
  set (q := initiate_particles F n k0 y0 t0) in *.
  set (start := BSmoothed (value q) (times q) [y0] q (nth 0 (log_weight q) []) (nth 0 (ess q) NaN) [0%nat]).
  destruct (propagate_ok dx cat (categorical_n_all _ Hcat) F n 0 q y1 t1 (KSplit k1 4 1) thr false dt Sh)
    as (mf & x1 & lw1 & e1 & E & (LV & FV & LW & FW & LT & LE) & _ & _ & _ & Ee & _).
  exists start. unfold smoother_bs. cbn [b_filter start]. rewrite E.
  assert (RQ : rows n 1 (value q)) by (destruct Sh as (L1 & F1 & _); apply rows_Forall; assumption).
  assert (Lq : length (value q) = 1%nat) by apply Sh.
  change (at_last (b_value start)) with (Some (nth 0 (value q) [])). cbv beta iota.
  assert (Ln : length (nth 0 (value q) []) = n) by (apply RQ; lia). rewrite Ln.
  change (b_times start) with [t0]. cbn [app length Nat.leb Nat.add Nat.sub].
  rewrite Ee, at_last_app.
  assert (Rs := rows_skipn n _ 1 _ (rows_Forall n _ _ LV FV)). assert (Rw := rows_skipn n _ 1 _ (rows_Forall n _ _ LW FW)).
  cbn [Nat.sub] in Rs, Rw.
  destruct (backward_shape dx dt pot cat cat1 unif unif_n Hcat Hun n n 0 (skipn 1 (value mf)) (skipn 1 (log_weight mf))
    (skipn 1 (times mf)) (KSplit k1 4 2) maxrej ib infl Hn Rs Rw) as (sim & evs & Eb & Rsim). rewrite Eb.
  assert (Ef : firstn 2 (value q) = value q) by (apply firstn_all2; lia).
  change (b_value start) with (value q). rewrite Ef.
  destruct (stitching_ok dx pot cat cat1 unif unif_n Hcat Hcat1 Hun n 0 0 (value q) (nth 1 [t0; t1] dt) sim (zeros n)
    (nth_clamp 2 [t0; t1] dt) k1 maxrej ib infl Hn RQ Rsim (zeros_length' n)) as (inds & ev & Es & _).
  rewrite Es. destruct Rsim as [Ls _]. destruct sim as [|x [|x' sim]]; try discriminate. cbn [tl map].
  rewrite app_nil_r. eexists. split; [reflexivity|]. split; [reflexivity|]. cbn [b_times b_value].
  split; [reflexivity|]. split; [reflexivity|exact Lq].
Qed.
Print Assumptions C69_lag_zero_refuted.

(** C70, before the lag is reached: the new log weights are those of the filter. *)
Theorem C70_weights_partial :
  forall (X Tm : Type) (dx : X) (dt : Tm) (pot : X -> Tm -> X -> Tm -> xr) categorical categorical1 uniform uniform_n
    (F : pfilter X Tm) (n T : nat) (p : smoothed) (y : obs) (t1 : Tm) (k : key)
    (lag maxrej : nat) (init_bound inflation : R),
  categorical_n_ok categorical -> categorical1_ok categorical1 -> (forall k n, length (uniform_n k n) = n) ->
  (0 < n)%nat -> (S T < lag)%nat ->
  table n (S T) (s_value p) -> length (s_times p) = S T -> length (s_lw p) = n ->
  exists p', smoother_pf dx dt pot categorical categorical1 uniform uniform_n F p y t1 k lag maxrej init_bound inflation = Some p'
  /\ length (s_lw p') = n
  /\ forall j, (j < n)%nat -> nth j (s_lw p') NaN
       = intermediate_log_weight F (nth j (nth T (s_value p') []) dx) (nth T (s_times p) dt)
           (nth j (nth (S T) (s_value p') []) dx) y t1.
Proof.
  intros X Tm dx dt pot cat cat1 unif unif_n F n T p y t1 k lag maxrej ib infl Hcat Hcat1 Hun Hn Hlag HV Ht Hl.
  destruct (smoother_pf_ok dx dt pot cat cat1 unif unif_n Hcat Hcat1 Hun F n T p y t1 k lag
    maxrej ib infl Hn ltac:(lia) (conj HV (conj Ht Hl))) as (p' & E & (RV & _ & Ll) & _).
  exists p'. split; [exact E|]. split; [exact Ll|]. intros j Hj.
  unfold smoother_pf in E. rewrite (at_last_nth (s_value p) T []) in E by apply HV.
  rewrite (at_last_nth (s_times p) T dt) in E by exact Ht.
  rewrite app_length, Ht in E. cbn [length] in E.
  destruct (Nat.leb_spec (lag + 1) (S T + 1)) as [H|_]; [lia|].
  set (V := if xltb _ _ then _ else _) in E.
  assert (LV : length V = S T) by (unfold V; destruct (xltb _ _); rewrite ?map_length; apply HV).
  assert (Elast : last V [] = nth T V []).
  { destruct (last_split V T LV) as (V' & a & EV & LV'). rewrite EV, last_last. symmetry. apply nth_last. exact LV'. }
  injection E as <-. cbn [s_value s_lw s_times] in *. rewrite Elast in *.
  set (x1 := propose F _ _ _ _ _) in *. rewrite (nth_last V x1 [] (S T)) by exact LV. rewrite (app_nth1 V) by lia.
  destruct RV as [LR RV]. 
  assert (L0 : length (nth T V []) = n). { rewrite <- (RV T ltac:(lia)). rewrite app_nth1 by lia. reflexivity. }
  assert (L1 : length x1 = n). { rewrite <- (RV (S T) ltac:(lia)). rewrite nth_last by exact LV. reflexivity. }
  unfold increments. rewrite (nth_map_in _ _ j (dx, dx)) by (rewrite combine_length; lia).
  rewrite combine_nth by lia. reflexivity.
Qed.
Print Assumptions C70_weights_partial.

(** C70, lag 0 without backward simulation: the update is the same for two
    filters that propose alike, whatever their weights: the observation is
    ignored. *)
Theorem C70_lag_zero_refuted :
  forall (X Tm : Type) (dx : X) (dt : Tm) (pot : X -> Tm -> X -> Tm -> xr) categorical categorical1 uniform uniform_n
    (F F' : pfilter X Tm) (n T : nat) (p : smoothed) (y : obs) (t1 : Tm) (k : key)
    (maxrej : nat) (init_bound inflation : R),
  categorical_n_ok categorical -> categorical1_ok categorical1 -> (forall k n, length (uniform_n k n) = n) ->
  (0 < n)%nat -> table n (S T) (s_value p) -> length (s_times p) = S T -> length (s_lw p) = n ->
  proposal_sample F = proposal_sample F' ->
  exists q q',
  smoother_pf dx dt pot categorical categorical1 uniform uniform_n F p y t1 k 0 maxrej init_bound inflation = Some q
  /\ smoother_pf dx dt pot categorical categorical1 uniform uniform_n F' p y t1 k 0 maxrej init_bound inflation = Some q'
  /\ s_value q = s_value q' /\ s_lw q = s_lw q' /\ s_lw q = repeat (Fin 0) n.
Proof.
  intros X Tm dx dt pot cat cat1 unif unif_n F F' n T p y t1 k maxrej ib infl Hcat Hcat1 Hun Hn HV Ht Hl HF.
  unfold smoother_pf. rewrite !(at_last_nth (s_value p) T []) by apply HV.
  rewrite (at_last_nth (s_times p) T dt) by exact Ht. rewrite app_length, Ht. cbn [length].
  assert (Ln : length (nth T (s_value p) []) = n) by (apply HV; lia). rewrite Ln.
  set (V := if xltb _ _ then _ else _).
  assert (RV : rows n (S T) V).
  { unfold V. destruct (cat_n_range cat Hcat k (s_lw p) n ltac:(lia)) as [C1 _]. destruct (xltb _ _); [|exact HV].
    destruct HV as [L H]. split; [rewrite map_length; exact L|].
    intros s Hs. rewrite (nth_map_in _ _ s []) by lia. rewrite take_length. exact C1. }
  assert (LV : length V = S T) by apply RV.
  assert (Elast : last V [] = nth T V []).
  { destruct (last_split V T LV) as (V' & a & EV & LV'). rewrite EV, last_last. symmetry. apply nth_last. exact LV'. }
  rewrite Elast. assert (L0 : length (nth T V []) = n) by (apply RV; lia). rewrite L0.
  replace (Nat.leb (0 + 1) (S T + 1)) with true by (symmetry; apply Nat.leb_le; lia).
  replace (S T + 1 - 0 - 1)%nat with (S T) by lia.
  assert (Ep : propose F (nth T V []) (nth T (s_times p) dt) y t1 (split_keys k n 0 n)
             = propose F' (nth T V []) (nth T (s_times p) dt) y t1 (split_keys k n 0 n)).
  { unfold propose. rewrite HF. reflexivity. }
  rewrite <- Ep. set (x1 := propose F _ _ _ _ _).
  assert (Lx1 : length x1 = n) by (unfold x1; rewrite propose_length, split_keys_length; lia).
  assert (RV1 : rows n (S (S T)) (V ++ [x1])).
  { split; [rewrite app_length; cbn; lia|]. intros r Hr. destruct (Nat.lt_ge_cases r (S T)) as [H1|H1].
    - rewrite app_nth1 by lia. apply RV. lia.
    - replace r with (S T) by lia. rewrite nth_last by exact LV. exact Lx1. }
  assert (Ef : firstn (S T + 1) (V ++ [x1]) = V ++ [x1]) by (apply firstn_all2; rewrite app_length; cbn; lia).
  rewrite Ef.
  assert (Rr := rows_skipn n _ (S T) _ RV1). replace (S (S T) - S T)%nat with 1%nat in Rr by lia.
  assert (G : forall lw, length lw = n -> exists ev,
    fixed_lag_stitching dx pot cat cat1 unif unif_n (V ++ [x1]) (nth (S T) (s_times p ++ [t1]) dt)
      (skipn (S T) (V ++ [x1])) lw (nth_clamp (S T + 1 - 0) (s_times p ++ [t1]) dt) k maxrej ib infl
    = Some (V ++ [x1], ev)).
  { intros lw Hlw.
    destruct (stitching_ok dx pot cat cat1 unif unif_n Hcat Hcat1 Hun n (S T) 0 (V ++ [x1]) (nth (S T) (s_times p ++ [t1]) dt)
      (skipn (S T) (V ++ [x1])) lw (nth_clamp (S T + 1 - 0) (s_times p ++ [t1]) dt) k maxrej ib infl Hn RV1 Rr Hlw)
      as (inds & ev & Es & _). exists ev. rewrite Es. destruct Rr as [Ls _].
    destruct (skipn (S T) (V ++ [x1])) as [|z [|z' l]]; try discriminate. cbn. rewrite app_nil_r. reflexivity. }
  destruct (G (increments F (nth T V []) (nth T (s_times p) dt) x1 y t1)) as [e1 E1];
    [rewrite increments_length; lia|].
  destruct (G (increments F' (nth T V []) (nth T (s_times p) dt) x1 y t1)) as [e2 E2];
    [rewrite increments_length; lia|].
  rewrite E1, E2. eexists _, _. split; [reflexivity|]. split; [reflexivity|]. repeat split.
Qed.
Print Assumptions C70_lag_zero_refuted.

Example C70_example :
  table 2 1 [[0; 1]]
  /\ proposal_sample (bootstrap walk_model)
     = proposal_sample (base_filter walk_model (proposal_sample (bootstrap walk_model)) (fun _ _ _ _ _ => Fin 0)).
Proof. split; [split; [reflexivity|]; intros [|s] H; [reflexivity|lia]|reflexivity]. Qed.

(** C71.  In one update without backward simulation and without rejection, one
    key draws both the new state of particle [j] and the index stitched to
    trajectory [j]. *)
Theorem C71_shared_key_refuted :
  forall (X Tm : Type) (dx : X) (dt : Tm) (pot : X -> Tm -> X -> Tm -> xr) categorical categorical1 uniform uniform_n
    (F : pfilter X Tm) (n T : nat) (p : smoothed) (y : obs) (t1 : Tm) (k : key)
    (lag : nat) (init_bound inflation : R),
  categorical_n_ok categorical -> categorical1_ok categorical1 -> (forall k n, length (uniform_n k n) = n) ->
  (0 < n)%nat -> (0 < lag <= S T)%nat ->
  table n (S T) (s_value p) -> length (s_times p) = S T -> s_lw p = repeat (Fin 0) n ->
  exists p' (used : nat -> key) (x1 : list X) (pick : nat -> nat) (lw : nat -> list xr),
  smoother_pf dx dt pot categorical categorical1 uniform uniform_n F p y t1 k lag 0 init_bound inflation = Some p'
  /\ forall j, (j < n)%nat ->
     nth j x1 dx = proposal_sample F (nth j (nth T (s_value p) []) dx) (nth T (s_times p) dt) y t1 (used j)
     /\ nth j (nth (S T) (s_value p') []) dx = nth (pick j) x1 dx
     /\ pick j = categorical1 (used j) (lw j).
Proof.
  intros X Tm dx dt pot cat cat1 unif unif_n F n T p y t1 k lag ib infl Hcat Hcat1 Hun Hn Hlag HV Ht Hz.
  assert (Hl : length (s_lw p) = n) by (rewrite Hz; apply repeat_length).
  unfold smoother_pf. rewrite (at_last_nth (s_value p) T []) by apply HV.
  rewrite (at_last_nth (s_times p) T dt) by exact Ht. rewrite app_length, Ht. cbn [length].
  assert (Ln : length (nth T (s_value p) []) = n) by (apply HV; lia). rewrite Ln.
  assert (Er : xltb (ess_log_weight (s_lw p)) (Fin (INR n - / 1000)) = false).
  { rewrite Hz. change (repeat (Fin 0) n) with (zeros n). rewrite (ess_zeros n Hn). cbn [xltb].
    destruct (Rltb (INR n) (INR n - / 1000)) eqn:Er; [|reflexivity]. apply Rltb_true in Er. lra. }
  rewrite Er. set (V := s_value p) in *. assert (LV : length V = S T) by apply HV.
  assert (Elast : last V [] = nth T V []).
  { destruct (last_split V T LV) as (V' & a & EV & LV'). rewrite EV, last_last. symmetry. apply nth_last. exact LV'. }
  rewrite Elast, Ln. set (x1 := propose F _ _ _ _ _). set (lw1 := increments _ _ _ _ _ _).
  assert (Lx1 : length x1 = n) by (unfold x1; rewrite propose_length, split_keys_length; lia).
  assert (RV1 : rows n (S (S T)) (V ++ [x1])).
  { split; [rewrite app_length; cbn; lia|]. intros r Hr. destruct (Nat.lt_ge_cases r (S T)) as [H1|H1].
    - rewrite app_nth1 by lia. apply HV. lia.
    - replace r with (S T) by lia. rewrite nth_last by exact LV. exact Lx1. }
  replace (Nat.leb (lag + 1) (S T + 1)) with true by (symmetry; apply Nat.leb_le; lia).
  set (s := (S T + 1 - lag - 1)%nat).
  assert (Re : rows n (S s) (firstn (s + 1) (V ++ [x1]))).
  { replace (S s) with (s + 1)%nat by lia. eapply rows_firstn; [exact RV1|unfold s; lia]. }
  assert (Rr := rows_skipn n _ s _ RV1). replace (S (S T) - s)%nat with (S lag) in Rr by (unfold s; lia).
  destruct (stitching_ok dx pot cat cat1 unif unif_n Hcat Hcat1 Hun n s lag (firstn (s + 1) (V ++ [x1]))
    (nth s (s_times p ++ [t1]) dt) (skipn s (V ++ [x1])) lw1
    (nth_clamp (S T + 1 - lag) (s_times p ++ [t1]) dt) k 0 ib infl Hn Re Rr)
    as (inds & ev & Es & Li & Hi & _ & Hf).
  { unfold lw1. rewrite increments_length. lia. }
  rewrite Es. eexists _, (fun j => KSplit k n j), x1, (fun j => nth j inds 0%nat), _. split; [reflexivity|].
  intros j Hj. split; [|split].
  - unfold x1. rewrite (propose_nth dx F _ _ _ _ _ j (KRoot 0)) by (rewrite ?split_keys_length; lia).
    rewrite split_keys_nth by exact Hj. reflexivity.
  - cbn [s_value]. assert (Lf : length (firstn (s + 1) (V ++ [x1])) = (s + 1)%nat) by (destruct Re; lia).
    rewrite app_nth2 by (unfold s in *; lia). rewrite Lf.
    assert (Etl : tl (skipn s (V ++ [x1])) = skipn (s + 1) (V ++ [x1])).
    { clear. generalize (V ++ [x1]) as l. induction s; intros [|a l]; cbn; auto; destruct s; reflexivity. }
    rewrite Etl. rewrite (nth_map_in _ _ _ []) by (rewrite skipn_length, app_length, LV; cbn [length]; unfold s; lia).
    rewrite nth_skipn'. replace (s + 1 + (S T - (s + 1)))%nat with (S T) by (unfold s; lia).
    rewrite nth_last by exact LV. apply take_nth. lia.
  - rewrite (Hf eq_refl j Hj). unfold full_stitch_single. reflexivity.
Qed.
Print Assumptions C71_shared_key_refuted.

Example C71_example :
  let p := Smoothed [[0; 1]] [Fin 0; Fin 0] [0] [[0]] (Fin 2) [0%nat] in
  table 2 1 (s_value p) /\ length (s_times p) = 1%nat /\ s_lw p = repeat (Fin 0) 2.
Proof. split; [split; [reflexivity|]; intros [|s] H; [reflexivity|lia]|]. split; reflexivity. Qed.

(** C71 with backward simulation and four particles: the key of the update is
    split in four to get the key of the filter and that of the backward
    simulation, and split in four again for the stitching. *)
Theorem C71_four_particles_refuted :
  forall (X Tm : Type) (dx : X) (dt : Tm) (pot : X -> Tm -> X -> Tm -> xr) categorical categorical1 uniform uniform_n
    (F : pfilter X Tm) (T : nat) (p : bsmoothed) (y : obs) (t1 : Tm) (k : key)
    (lag : nat) (thr init_bound inflation : R),
  categorical_n_ok categorical -> categorical1_ok categorical1 -> (forall k n, length (uniform_n k n) = n) ->
  (0 < lag <= S T)%nat -> bshape 4 (S T) p ->
  exists p' mf sim evs (used : nat -> key) (lw : nat -> list xr) (pick : nat -> nat),
  smoother_bs dx dt pot categorical categorical1 uniform uniform_n F p y t1 k lag thr 0 init_bound inflation = Some p'
  /\ propagate_particle_filter dx categorical F (b_filter p) y t1 (used 1%nat) thr false = Some mf
  /\ backward_simulation dx pot categorical categorical1 uniform uniform_n dt
       (skipn (S T - lag) (value mf)) (skipn (S T - lag) (log_weight mf)) (skipn (S T - lag) (times mf)) (used 2%nat) (Some 4%nat)
       0 init_bound inflation = Some (sim, evs)
  /\ forall j, (j < 4)%nat -> nth j (nth (S T) (b_value p') []) dx = nth (pick j) (nth lag sim []) dx
     /\ pick j = categorical1 (used j) (lw j).
Proof.
  intros X Tm dx dt pot cat cat1 unif unif_n F T p y t1 k lag thr ib infl Hcat Hcat1 Hun Hlag Sh.
  assert (Hn : (0 < 4)%nat) by lia.
  destruct (smoother_bs_ok dx dt pot cat cat1 unif unif_n Hcat Hcat1 Hun F (categorical_n_all _ Hcat) 4 T p y t1 k lag
    thr 0 ib infl Hn ltac:(lia) Sh) as
    (p' & E & Sh' & _ & _ & _ & Em & sim & evs & Es & _ & Hst).
  destruct (Hst ltac:(lia)) as (Rs & _).
  replace (S (S T) - lag - 1)%nat with (S T - lag)%nat in Es by lia.
  exists p', (b_filter p'), sim, evs, (fun j => KSplit k 4 j).
  destruct Sh as (HV & Ht & Hf).
  assert (Re : rows 4 (S (S T - lag)) (firstn (S T - lag + 1) (b_value p))).
  { replace (S (S T - lag)) with (S T - lag + 1)%nat by lia. eapply rows_firstn; [exact HV|lia]. }
  destruct (stitching_ok dx pot cat cat1 unif unif_n Hcat Hcat1 Hun 4 (S T - lag) lag (firstn (S T - lag + 1) (b_value p))
    (nth (S T - lag) (b_times p ++ [t1]) dt) sim (zeros 4)
    (nth_clamp (S T + 1 - lag) (b_times p ++ [t1]) dt) k 0 ib infl Hn Re Rs (zeros_length' 4))
    as (inds & ev & Et & Li & Hi & _ & Hfull).
  assert (EV : b_value p' = firstn (S T - lag + 1) (b_value p) ++ map (fun row => take dx row inds) (tl sim)).
  { unfold smoother_bs in E. rewrite Em in E. rewrite (at_last_nth (b_value p) T []) in E by apply HV.
    assert (Ln : length (nth T (b_value p) []) = 4%nat) by (apply HV; lia). rewrite Ln in E.
    rewrite app_length, Ht in E. cbn [length] in E.
    replace (Nat.leb (lag + 1) (S T + 1)) with true in E by (symmetry; apply Nat.leb_le; lia).
    replace (S T + 1 - lag - 1)%nat with (S T - lag)%nat in E by lia.
    rewrite Es, Et in E. destruct (at_last (ess (b_filter p'))); [|discriminate].
    injection E as <-. reflexivity. }
  eexists _, (fun j => nth j inds 0%nat).
  split; [exact E|]. split; [exact Em|]. split; [exact Es|].
  intros j Hj. split; [|rewrite (Hfull eq_refl j Hj); unfold full_stitch_single; reflexivity].
  rewrite EV. assert (Lf : length (firstn (S T - lag + 1) (b_value p)) = (S T - lag + 1)%nat) by (destruct Re; lia).
  rewrite app_nth2 by lia. rewrite Lf. destruct Rs as [Ls _]. destruct sim as [|x0 sim]; [discriminate|]. cbn in Ls. cbn [tl].
  rewrite (nth_map_in _ _ _ []) by lia. destruct lag as [|lag']; [lia|]. cbn [nth].
  replace (S T - (S T - S lag' + 1))%nat with lag' by lia. apply take_nth. lia.
Qed.
Print Assumptions C71_four_particles_refuted.
