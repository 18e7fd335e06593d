(** Property theorems C19, C20, C21, C22, C24, C32 (SMC), C54. *)
From Coq Require Import Reals List Bool Arith Lia Lra.
From Coquelicot Require Import Rcomplements.
From Verif Require Import XR Keys LoopModel LoopSpec LoopProofs LoopProps McmcModel McmcSpec McmcProofs
  WeightsModel WeightsSpec WeightsProofs BisectModel BisectProofs BisectProps
  SmcModel SmcSpec SmcProofs SmcRun SmcNorm.
Import ListNotations.
Open Scope R_scope.

(** a categorical draw that always takes the first category of finite weight *)
Fixpoint first_finite (lw : list xr) : nat :=
  match lw with
  | [] => 0
  | Fin _ :: _ => 0
  | _ :: l => S (first_finite l)
  end%nat.
Definition cat_first (k : key) (lw : list xr) (n : nat) : list nat :=
  repeat (if (first_finite lw <? n)%nat then first_finite lw else 0%nat) n.

Lemma cat_first_ok : categorical_ok cat_first.
Proof.
  intros k lw n L. unfold cat_first. split; [apply repeat_length|].
  assert (F : lw_ok lw -> (first_finite lw < length lw)%nat /\ finite (nth (first_finite lw) lw NInf)).
  { intros [_ E]. clear -E. induction E as [x l [r ->]|x l E IH].
    - cbn. split; [lia|exists r; auto].
    - destruct x; cbn; try (split; [lia|exists r; auto]); destruct IH; split; auto; lia. }
  split.
  - apply Forall_forall. intros i Hi. apply repeat_spec in Hi as Hi'. subst i.
    destruct (Nat.ltb_spec (first_finite lw) n); [assumption|]. destruct n; [inversion Hi|lia].
  - intros Ok. destruct (F Ok) as [F1 F2]. rewrite L in F1.
    apply Forall_forall. intros i Hi. apply repeat_spec in Hi. subst i.
    destruct (Nat.ltb_spec (first_finite lw) n); [assumption|lia].
Qed.

(** * C19 *)
(** Every resampled particle is one parent of positive weight in every field,
    with log weight zero and effective sample size n.  (On the cdict itself:
    C19_resample_cdict.) *)
Theorem C19_resampled_particles :
  forall (categorical : key -> list xr -> nat -> list nat) (E : ensemble) (k : key),
  categorical_ok categorical ->
  length (resample categorical E k) = length E
  /\ forall i, (i < length E)%nat ->
     exists j, (j < length E)%nat
       /\ (lw_ok (map p_lw E) -> finite (p_lw (nth j E dpart)))
       /\ let p := nth i (resample categorical E k) dpart in
          let q := nth j E dpart in
          (p_value p = p_value q /\ p_prior p = p_prior q /\ p_lik p = p_lik q /\ p_pot p = p_pot q
           /\ p_gprior p = p_gprior q /\ p_glik p = p_glik q /\ p_gpot p = p_gpot q
           /\ p_alpha p = p_alpha q /\ p_temp p = p_temp q /\ p_lnc p = p_lnc q)
          /\ p_lw p = Fin 0 /\ p_ess p = Fin (INR (length E)).
Proof.
  intros cat E k Ok. split; [apply resample_length; exact Ok|]. intros i Hi.
  destruct (Ok k (map p_lw E) (length E) (map_length _ _)) as (L & F & G).
  set (idx := cat k (map p_lw E) (length E)) in *.
  assert (Hin : In (nth i idx 0%nat) idx) by (apply nth_In; rewrite L; exact Hi).
  exists (nth i idx 0%nat). rewrite Forall_forall in F. split; [apply F; exact Hin|]. split.
  - intros W. specialize (G W). rewrite Forall_forall in G. specialize (G _ Hin).
    rewrite (nth_indep _ NInf (p_lw dpart)) in G by (rewrite map_length; apply F; exact Hin).
    rewrite map_nth in G. exact G.
  - cbv zeta. unfold resample. fold idx.
    match goal with |- context [map ?f idx] => set (g := f) end.
    rewrite (nth_indep (map g idx) dpart (g 0%nat)) by (rewrite map_length, L; exact Hi).
    rewrite map_nth. unfold g, set_weight. cbn. tauto.
Qed.
Print Assumptions C19_resampled_particles.

Definition ex_part (x : R) (w : xr) : part :=
  Part (fun _ => x) (Fin 0) (Fin x) (Fin x) (fun _ => 0) (fun _ => 1) (fun _ => 1) (Fin 1) 1 w (Fin 1) (Fin 0).

(** Dead particles (weight minus infinity) are never parents. *)
Example C19_example :
  map (fun p => (p_value p 0%nat, p_lw p)) (resample cat_first [ex_part 1 NInf; ex_part 2 (Fin 5); ex_part 3 NInf] (KRoot 0))
  = [(2, Fin 0); (2, Fin 0); (2, Fin 0)]
  /\ categorical_ok cat_first.
Proof. split; [reflexivity|exact cat_first_ok]. Qed.

(** * C20 *)
Section RunTemps.
  Variable prior lik : vec -> key -> xr.
  Variable gprior glik : vec -> key -> vec.
  Variable categorical : key -> list xr -> nat -> list nat.
  Variable inner : R -> R -> key -> vec -> (vec * xr * xr) * key.
  Variable thr : R.
  Hypothesis cat_ok : categorical_ok categorical.

  Lemma scheduled_iterate l vs k st j : vs <> [] ->
    let c := iterate (smc_update prior categorical inner (scheduled l) thr) j
               (smc_startup prior lik gprior glik (scheduled l) vs k st) in
    p_temp (first (fst c)) = nth j l (last l 0) /\ s_iter (snd c) = j.
  Proof.
    intros Hv. cbv zeta.
    set (init := smc_startup prior lik gprior glik (scheduled l) vs k st).
    assert (Hne : fst init <> []) by (apply startup_nonempty; exact Hv).
    assert (It : s_iter (snd (iterate (smc_update prior categorical inner (scheduled l) thr) j init)) = j).
    { rewrite iterate_iter. reflexivity. }
    split; [|exact It].
    destruct j as [|j].
    - cbn [iterate]. apply (startup_temp prior lik (scheduled l) gprior glik vs k st). apply first_in; exact Hne.
    - cbn [iterate]. rewrite (update_first_temp _ _ _ _ _ cat_ok) by (apply iterate_nonempty; auto).
      unfold scheduled at 1. rewrite iterate_iter. reflexivity.
  Qed.

  Lemma scheduled_run l vs k st : vs <> [] -> l <> [] ->
    let chain := smc_run prior categorical inner (scheduled l) thr (length l) (last l 0)
                   (smc_startup prior lik gprior glik (scheduled l) vs k st) in
    exists m, (m < length l)%nat
      /\ (forall j, (j < m)%nat -> nth j l 0 < last l 0)
      /\ last l 0 <= nth m l 0
      /\ clean_temperatures chain = firstn (S m) l.
  Proof.
    intros Hv Hl. cbv zeta. unfold smc_run.
    set (init := smc_startup _ _ _ _ _ _ _ _). set (upd := smc_update _ _ _ _ _).
    set (term := fun (E : ensemble) (e : sextra) => _).
    destruct (C01_run_is_while_loop _ _ term upd init (length l)) as (m & ((Hm & Hc & Hs) & Hr) & _).
    assert (T : forall j, p_temp (first (fst (iterate upd j init))) = nth j l (last l 0)
                  /\ s_iter (snd (iterate upd j init)) = j) by (intros j; apply scheduled_iterate; exact Hv).
    assert (Term : forall j, negb (term (fst (iterate upd j init)) (snd (iterate upd j init))) = true
               <-> (nth j l (last l 0) < last l 0 /\ (j < length l)%nat)).
    { intros j. unfold term. destruct (T j) as [-> ->].
      rewrite negb_true_iff, orb_false_iff, Rleb_false, Nat.leb_gt. tauto. }
    assert (Lpos : (0 < length l)%nat) by (destruct l; [congruence|cbn; lia]).
    assert (Last : nth (length l - 1) l (last l 0) = last l 0).
    { clear -Hl. destruct (exists_last Hl) as (l' & x & ->). rewrite last_last, app_length. cbn.
      rewrite Nat.add_sub. rewrite app_nth2, Nat.sub_diag by lia. reflexivity. }
    assert (Hlt : (m < length l)%nat).
    { destruct (Nat.lt_ge_cases (length l - 1) m) as [G|G]; [|lia].
      specialize (Hc _ G). apply Term in Hc. rewrite Last in Hc. lra. }
    exists m. split; [exact Hlt|]. split; [|split].
    - intros j Hj. specialize (Hc j Hj). apply Term in Hc.
      rewrite (nth_indep l 0 (last l 0)) by lia. apply Hc.
    - destruct Hs as [Hs|Hs]; [lia|].
      apply Rnot_lt_le. intros G. rewrite (nth_indep l 0 (last l 0)) in G by lia.
      assert (X : negb (term (fst (iterate upd m init)) (snd (iterate upd m init))) = true) by (apply Term; auto).
      congruence.
    - unfold clean_temperatures. rewrite Hr, map_map.
      rewrite (map_ext _ (fun j => nth j l (last l 0))) by (intros j; apply T).
      clear -Hlt. generalize (last l 0). intros d.
      apply nth_ext with (d := d) (d' := d).
      + rewrite map_length, seq_length, firstn_length. lia.
      + intros i Hi. rewrite map_length, seq_length in Hi.
        rewrite (nth_indep _ d ((fun j => nth j l d) 0%nat)) by (rewrite map_length, seq_length; lia).
        rewrite (map_nth (fun j => nth j l d)), seq_nth by lia. cbn [Nat.add].
        rewrite <- (firstn_skipn (S m) l) at 1. rewrite app_nth1; [reflexivity|].
        rewrite firstn_length. lia.
  Qed.
End RunTemps.

(** For every schedule: the temperatures recorded are the entries of the
    schedule in order, up to and including the first one that is at least the
    last entry; the scenario is left at the last recorded one. *)
Theorem C20_schedule_followed :
  forall prior lik gprior glik categorical inner thr (s : tsampler) l vs k st,
  categorical_ok categorical -> vs <> [] ->
  t_schedule s = Some l -> l <> [] -> t_max_iter s = length l -> t_max_temp s = last l 0 ->
  let chain := smc_run prior categorical inner (scheduled l) thr (t_max_iter s) (t_max_temp s)
                 (smc_startup prior lik gprior glik (scheduled l) vs k st) in
  exists m, (m < length l)%nat
    /\ (forall j, (j < m)%nat -> nth j l 0 < last l 0)
    /\ last l 0 <= nth m l 0
    /\ clean_temperatures chain = firstn (S m) l
    /\ final_scenario_temperature chain = nth m l 0.
Proof.
  intros prior lik gprior glik cat inner thr s l vs k st Ok Hv Hs Hl Hi Ht. cbv zeta.
  rewrite Hi, Ht.
  destruct (scheduled_run prior lik gprior glik cat inner thr Ok l vs k st Hv Hl) as (m & H1 & H2 & H3 & H4).
  exists m. split; [exact H1|]. split; [exact H2|]. split; [exact H3|]. split; [exact H4|].
  unfold final_scenario_temperature. rewrite H4. clear -H1.
  revert l H1. induction m as [|m IH]; intros [|x l] H; cbn in H; try lia; [reflexivity|].
  change (firstn (S (S m)) (x :: l)) with (x :: firstn (S m) l).
  destruct l as [|y l]; [cbn in H; lia|].
  change (last (x :: firstn (S m) (y :: l)) 0) with (last (firstn (S m) (y :: l)) 0).
  rewrite IH by (cbn in *; lia). reflexivity.
Qed.
Print Assumptions C20_schedule_followed.

(** If no earlier entry reaches the last one (any increasing schedule) the
    whole schedule is recorded and the run ends at its last entry. *)
Theorem C20_whole_schedule :
  forall prior lik gprior glik categorical inner thr (s : tsampler) l vs k st,
  categorical_ok categorical -> vs <> [] ->
  t_schedule s = Some l -> l <> [] -> t_max_iter s = length l -> t_max_temp s = last l 0 ->
  (forall j, (j < length l - 1)%nat -> nth j l 0 < last l 0) ->
  let chain := smc_run prior categorical inner (scheduled l) thr (t_max_iter s) (t_max_temp s)
                 (smc_startup prior lik gprior glik (scheduled l) vs k st) in
  clean_temperatures chain = l /\ final_scenario_temperature chain = last l 0.
Proof.
  intros prior lik gprior glik cat inner thr s l vs k st Ok Hv Hs Hl Hi Ht Hinc. cbv zeta.
  destruct (C20_schedule_followed prior lik gprior glik cat inner thr s l vs k st Ok Hv Hs Hl Hi Ht)
    as (m & H1 & _ & H3 & H4 & _).
  assert (m = (length l - 1)%nat).
  { destruct (Nat.lt_ge_cases m (length l - 1)) as [G|G]; [|lia]. specialize (Hinc m G). lra. }
  rewrite firstn_all2 in H4 by lia.
  split; [exact H4|]. unfold final_scenario_temperature. rewrite H4. reflexivity.
Qed.
Print Assumptions C20_whole_schedule.

(** Assigning a schedule: whatever the previous history of assignments, the
    iteration limit and the final temperature become those of the schedule
    without its leading zero. *)
Definition thistory (ops : list tassign) (s : option tsampler) : option tsampler :=
  fold_left (fun s a => match s with Some s' => tset s' a | None => None end) ops s.

Theorem C20_assignment_consistent :
  forall (ops : list tassign) (s0 : tsampler) (l : list R) (s : tsampler),
  thistory (ops ++ [SetSchedule (Some l)]) (Some s0) = Some s ->
  exists l', t_schedule s = Some l' /\ l' <> []
    /\ (l = l' \/ l = 0 :: l') /\ (hd 1 l = 0 -> l = 0 :: l') /\ (hd 1 l <> 0 -> l = l')
    /\ t_max_iter s = length l' /\ t_max_temp s = last l' 0.
Proof.
  intros ops s0 l s H. unfold thistory in H. rewrite fold_left_app in H. cbn in H.
  destruct (fold_left _ ops (Some s0)) as [s1|]; [|discriminate].
  unfold drop_zero in H. destruct l as [|t l]; [discriminate|].
  destruct (Req_EM_T t 0) as [->|N].
  - destruct l as [|u l]; [discriminate|]. inversion H; subst s. cbn [t_schedule t_max_iter t_max_temp].
    exists (u :: l). split; [reflexivity|]. split; [discriminate|]. split; [auto|]. split; [auto|].
    split; [cbn; intros; lra|]. split; [reflexivity|].
    clear. revert u. induction l as [|a l IH]; intros u; [reflexivity|]. cbn [last]. rewrite IH.
    destruct l; reflexivity.
  - inversion H; subst s. cbn [t_schedule t_max_iter t_max_temp].
    exists (t :: l). split; [reflexivity|]. split; [discriminate|]. split; [auto|].
    split; [cbn; intros; lra|]. split; [auto|]. split; [reflexivity|].
    clear. revert t. induction l as [|a l IH]; intros u; [reflexivity|]. cbn [last]. rewrite IH.
    destruct l; reflexivity.
Qed.
Print Assumptions C20_assignment_consistent.

(** Clearing the schedule: the iteration limit goes to 10000 whatever it was
    before, and the final temperature stays that of the cleared schedule. *)
Theorem C20_clearing_refuted :
  exists (s0 s1 s2 : tsampler) (l : list R),
    construct_tsampler 50 1 None = Some s0
    /\ tset s0 (SetSchedule (Some l)) = Some s1 /\ tset s1 (SetSchedule None) = Some s2
    /\ t_schedule s2 = None
    /\ t_max_temp s0 = 1 /\ t_max_temp s2 = / 2
    /\ t_max_iter s0 = 50%nat /\ t_max_iter s2 = 10000%nat.
Proof.
  exists (TSampler 50 1 None), (TSampler 2 (/ 2) (Some [/ 4; / 2])), (TSampler 10000 (/ 2) None), [/ 4; / 2].
  split; [reflexivity|]. split.
  { cbn. destruct (Req_EM_T (/ 4) 0); [lra|]. reflexivity. }
  repeat (split; [reflexivity|]). reflexivity.
Qed.
Print Assumptions C20_clearing_refuted.

(** [0, 1/4, 1]: the zero is dropped, both remaining temperatures are used. *)
Example C20_example :
  exists s, construct_tsampler 10000 1 (Some [0; / 4; 1]) = Some s
  /\ t_schedule s = Some [/ 4; 1] /\ t_max_iter s = 2%nat /\ t_max_temp s = 1
  /\ (forall j, (j < length ([/ 4; 1]%R : list R) - 1)%nat -> nth j [/ 4; 1] 0 < last [/ 4; 1] 0).
Proof.
  exists (TSampler 2 1 (Some [/ 4; 1])). split.
  - unfold construct_tsampler, set_schedule, drop_zero. cbn.
    destruct (Req_EM_T 0 0); [|lra]. destruct (Req_EM_T (/ 4) 0); [lra|]. reflexivity.
  - repeat (split; [reflexivity|]). intros [|j] Hj; cbn in *; [lra|lia].
Qed.

(** * C21 *)
Lemma adaptive_between E retain tol mb tmax it : 0 < tol -> p_temp (first E) <= tmax ->
  p_temp (first E) <= next_temperature_adaptive retain tol mb tmax E it <= tmax.
Proof.
  intros Ht Hle. unfold next_temperature_adaptive. cbv zeta.
  destruct (C18_bisect (adaptive_objective E retain) mb tol (p_temp (first E)) tmax Ht) as (_ & (B0 & B1) & _).
  rewrite Rmin_left, Rmax_right in B0, B1 by exact Hle.
  destruct (Rleb _ _); assumption.
Qed.

(** In every adaptive run the recorded temperatures never decrease and never
    exceed the maximum.  Missing: that they reach it (refuted below). *)
Theorem C21_between_partial :
  forall prior lik gprior glik categorical inner thr retain tol mb tmax max_iter vs k st,
  categorical_ok categorical -> vs <> [] -> 0 < tol -> 0 <= tmax ->
  let next := next_temperature_adaptive retain tol mb tmax in
  let temps := clean_temperatures
     (smc_run prior categorical inner next thr max_iter tmax (smc_startup prior lik gprior glik next vs k st)) in
  List.Forall (fun t => 0 <= t <= tmax) temps
  /\ forall i, (S i < length temps)%nat -> nth i temps 0 <= nth (S i) temps 0.
Proof.
  intros prior lik gprior glik cat inner thr retain tol mb tmax mi vs k st Ok Hv Ht Hm. cbv zeta.
  set (next := next_temperature_adaptive retain tol mb tmax).
  unfold smc_run. set (init := smc_startup _ _ _ _ _ _ _ _). set (upd := smc_update _ _ _ _ _).
  set (term := fun (E : ensemble) (e : sextra) => _).
  destruct (C01_run_is_while_loop _ _ term upd init mi) as (m & (_ & Hr) & _).
  assert (Hne : forall j, fst (iterate upd j init) <> []).
  { intros j. apply iterate_nonempty; [exact Ok|]. apply startup_nonempty; exact Hv. }
  assert (Sh : forall j, shared (fst (iterate upd j init))).
  { intros j. apply iterate_shared; [exact Ok|]. apply startup_shared. }
  assert (T0 : 0 <= p_temp (first (fst init)) <= tmax).
  { unfold init. rewrite (startup_temp prior lik next gprior glik vs k st) by (apply first_in, startup_nonempty, Hv).
    assert (Z : p_temp (first (smc_prestart prior lik gprior glik vs k)) = 0).
    { rewrite first_nth, nth_prestart; [reflexivity|]. destruct vs; [congruence|cbn; lia]. }
    pose proof (adaptive_between (smc_prestart prior lik gprior glik vs k) retain tol mb tmax 0 Ht) as A.
    rewrite Z in A. apply A; exact Hm. }
  assert (Step : forall j, p_temp (first (fst (iterate upd j init))) <= tmax ->
     p_temp (first (fst (iterate upd j init))) <= p_temp (first (fst (iterate upd (S j) init))) <= tmax).
  { intros j Hj. cbn [iterate]. set (c := iterate upd j init) in *.
    unfold upd. rewrite (update_first_temp _ _ _ _ _ Ok) by apply Hne.
    set (N := moved_ensemble _ _ _ _ _ _).
    assert (E1 : p_temp (first N) = p_temp (first (fst c))).
    { apply (moved_temp prior cat inner thr Ok (fst c) (snd c)); [apply Sh|]. apply first_in, moved_nonempty; auto. apply Hne. }
    rewrite <- E1. apply adaptive_between; [exact Ht|]. rewrite E1. exact Hj. }
  assert (All : forall j, 0 <= p_temp (first (fst (iterate upd j init))) <= tmax).
  { induction j as [|j IH]; [exact T0|]. specialize (Step j (proj2 IH)). lra. }
  unfold clean_temperatures. rewrite Hr, map_map.
  split.
  - apply Forall_forall. intros t Hin. apply in_map_iff in Hin. destruct Hin as (j & <- & _). apply All.
  - intros i Hi. rewrite map_length, seq_length in Hi.
    set (f := fun j => p_temp (first (fst (iterate upd j init)))).
    rewrite (nth_indep _ 0 (f 0%nat)) by (rewrite map_length, seq_length; lia).
    rewrite (nth_indep (map _ _) 0 (f 0%nat)) by (rewrite map_length, seq_length; lia).
    rewrite !(map_nth f), !seq_nth by lia. unfold f. cbn [Nat.add].
    apply Step. apply All.
Qed.
Print Assumptions C21_between_partial.

(** The importance weights of an ensemble of finite log weights [w] and
    likelihood potentials [l] when the temperature is raised by [d]. *)
Definition tilted (wl : list (R * R)) (d : R) : list R := map (fun a => exp (fst a - d * snd a)) wl.

Lemma objective_kish E wl retain ess x :
  E <> [] -> map p_lw E = map (fun a => Fin (fst a)) wl -> map p_lik E = map (fun a => Fin (snd a)) wl ->
  p_ess (first E) = Fin ess ->
  adaptive_objective E retain x = ln (kish (tilted wl (x - p_temp (first E)))) - ln (ess * retain).
Proof.
  intros Hne Hw Hl He. unfold adaptive_objective. rewrite He. cbn [rval]. f_equal.
  set (d := x - p_temp (first E)).
  assert (M : map (fun p => xsub (p_lw p) (xmul (Fin d) (p_lik p))) E = map (fun a => Fin (fst a - d * snd a)) wl).
  { clearbody d. clear -Hw Hl. revert wl Hw Hl. induction E as [|p E IH]; intros [|a wl] Hw Hl; try discriminate; [reflexivity|].
    cbn [map] in *. inversion Hw. inversion Hl. rewrite H0, H2, (IH wl H1 H3). reflexivity. }
  rewrite M. set (l := map _ wl).
  assert (Ok : lw_ok l).
  { assert (wl <> []) by (destruct E; [congruence|]; intros ->; discriminate).
    unfold l. split.
    - apply Forall_forall. intros z Hz. apply in_map_iff in Hz. destruct Hz as (a & <- & _). right. eexists; reflexivity.
    - destruct wl; [congruence|]. left. eexists; reflexivity. }
  assert (W : weights l = tilted wl d).
  { clear. unfold weights, l, tilted. rewrite map_map. apply map_ext. reflexivity. }
  rewrite log_ess_fin by exact Ok. cbn [rval].
  pose proof (weights_sum_pos l (proj2 Ok)) as P. pose proof (sq_sum_pos _ (weights_pos l (proj2 Ok))) as Q.
  rewrite <- W. unfold kish, Rdiv. rewrite ln_mult, ln_Rinv by (auto; try apply pow_lt; auto; apply Rinv_0_lt_compat; auto).
  replace (Rsum (weights l) ^ 2) with (Rsum (weights l) * Rsum (weights l)) by ring. rewrite ln_mult by auto. lra.
Qed.

Lemma progress_core :
  forall (E : ensemble) (retain tol : R) (mb : nat) (tmax : R) (it : nat) (ess : R),
  0 < tol -> 0 < retain -> tol <= - ln retain -> 0 < ess ->
  p_temp (first E) < tmax ->
  p_ess (first E) = Fin ess ->
  adaptive_objective E retain (p_temp (first E)) = ln ess - ln (ess * retain) ->
  adaptive_objective E retain tmax < adaptive_objective E retain (p_temp (first E)) ->
  (biter (bisect (adaptive_objective E retain) mb tol (p_temp (first E)) tmax) < mb)%nat ->
  p_temp (first E) < next_temperature_adaptive retain tol mb tmax E it
  /\ ((next_temperature_adaptive retain tol mb tmax E it = tmax /\ 0 < adaptive_objective E retain tmax)
      \/ Rabs (adaptive_objective E retain (next_temperature_adaptive retain tol mb tmax E it)) < tol).
Proof.
  intros E retain tol mb tmax it ess Ht Hr Htr He Hlt Hess H0 Hdec Hit.
  unfold next_temperature_adaptive. cbv zeta.
  set (f := adaptive_objective E retain) in *. set (t := p_temp (first E)) in *.
  destruct (C18_bisect f mb tol t tmax Ht) as ((E0 & E1) & (B0 & B1) & _ & Hsg & _ & Hst & _).
  destruct (bisect_run f mb tol Ht t tmax) as (k & Ek & Bk & _ & _ & Inv).
  set (r := bisect f mb tol t tmax) in *.
  assert (Ft : f t = - ln retain).
  { rewrite H0, ln_mult by assumption. lra. }
  rewrite Rmin_left, Rmax_right in B0, B1 by lra.
  assert (Close : (Rabs (f (b0 r)) < tol \/ Rabs (f (b1 r)) < tol) ->
     t < (if Rleb (Rabs (e0 r)) (Rabs (e1 r)) then b0 r else b1 r)
     /\ Rabs (f (if Rleb (Rabs (e0 r)) (Rabs (e1 r)) then b0 r else b1 r)) < tol).
  { intros C.
    assert (C' : Rabs (f (if Rleb (Rabs (e0 r)) (Rabs (e1 r)) then b0 r else b1 r)) < tol).
    { rewrite E0, E1. unfold Rleb. destruct (Rle_dec _ _); destruct C; lra. }
    split; [|exact C'].
    assert (G : t <= (if Rleb (Rabs (e0 r)) (Rabs (e1 r)) then b0 r else b1 r)) by (destruct (Rleb _ _); lra).
    destruct G as [G|G]; [exact G|]. exfalso. rewrite <- G in C'. rewrite Ft in C'.
    unfold Rabs in C'. destruct (Rcase_abs _); lra. }
  destruct Hst as [C|[C|[C|C]]].
  - destruct (Close (or_introl C)); auto.
  - destruct (Close (or_intror C)); auto.
  - lia.
  - (* signs agree: the loop was not entered *)
    destruct k as [|k].
    + cbn in Ek. rewrite Ek. cbn [b0 b1 e0 e1 bisect_init].
      assert (P : f t > 0) by lra.
      assert (Q : f tmax > 0).
      { rewrite Ek in C. cbn in C. apply Rmult_lt_reg_l with (f t); lra. }
      assert (X : Rleb (Rabs (f t)) (Rabs (f tmax)) = false).
      { apply Rleb_false. rewrite !Rabs_right by lra. exact Hdec. }
      rewrite X. auto.
    + specialize (Inv (Nat.lt_0_succ k) (S k) (Nat.le_refl _)). rewrite <- Ek in Inv.
      destruct Inv as (I0 & I1 & _ & _ & _ & _ & S).
      rewrite <- I0, <- I1 in C. destruct (bisect_increasing f t tmax); nra.
Qed.

(** When a step makes progress: finite weights and likelihood potentials, the
    recorded ess is that of the weights, the effective sample size at the
    maximal temperature is smaller, the root finder did not run out of
    iterations and the tolerance is at most -log retain.  Then the temperature
    rises, and unless it is the maximum and that keeps more than [retain] of the
    effective sample size, the new effective sample size is [retain] times the
    old one up to a factor exp(+-tol). *)
Theorem C21_progress_partial :
  forall (E : ensemble) (wl : list (R * R)) (retain tol : R) (mb : nat) (tmax : R) (it : nat),
  E <> [] -> map p_lw E = map (fun a => Fin (fst a)) wl -> map p_lik E = map (fun a => Fin (snd a)) wl ->
  p_ess (first E) = Fin (kish (map (fun a => exp (fst a)) wl)) ->
  0 < tol -> 0 < retain -> tol <= - ln retain ->
  p_temp (first E) < tmax ->
  kish (tilted wl (tmax - p_temp (first E))) < kish (map (fun a => exp (fst a)) wl) ->
  (biter (bisect (adaptive_objective E retain) mb tol (p_temp (first E)) tmax) < mb)%nat ->
  let t := p_temp (first E) in
  let t' := next_temperature_adaptive retain tol mb tmax E it in
  let ess := kish (map (fun a => exp (fst a)) wl) in
  let ess' := kish (tilted wl (t' - t)) in
  t < t'
  /\ ((t' = tmax /\ retain * ess < ess') \/ (exp (- tol) < ess' / (retain * ess) < exp tol)).
Proof.
  intros E wl retain tol mb tmax it Hne Hw Hl He Ht Hr Htr Hlt Hdec Hit. cbv zeta.
  set (t := p_temp (first E)) in *. set (ess := kish (map (fun a => exp (fst a)) wl)) in *.
  assert (Hwl : wl <> []) by (destruct E; [congruence|]; intros ->; discriminate).
  assert (Kpos : forall d, 0 < kish (tilted wl d)).
  { intros d. assert (L : (length (tilted wl d) <> 0)%nat) by (unfold tilted; rewrite map_length; destruct wl; cbn; congruence).
    assert (A : forall x, In x (tilted wl d) -> 0 < x).
    { intros x Hx. apply in_map_iff in Hx. destruct Hx as (a & <- & _). apply exp_pos. }
    assert (S1 : forall l, l <> [] -> (forall x, In x l -> 0 < x) -> 0 < Rsum l).
    { clear. induction l as [|x l IH]; intros N H; [congruence|]. cbn [Rsum].
      specialize (H x (or_introl eq_refl)) as Hx. destruct l as [|y l]; [cbn; lra|].
      assert (0 < Rsum (y :: l)) by (apply IH; [discriminate|intros z Hz; apply H; right; exact Hz]). lra. }
    unfold kish, Rdiv. apply Rmult_lt_0_compat.
    - apply pow_lt, S1; [intros C; rewrite C in L; apply L; reflexivity|exact A].
    - apply Rinv_0_lt_compat, S1.
      + intros C. apply map_eq_nil in C. rewrite C in L. apply L; reflexivity.
      + intros x Hx. apply in_map_iff in Hx. destruct Hx as (y & <- & Hy). apply pow_lt, A, Hy. }
  assert (Z : tilted wl (t - t) = map (fun a => exp (fst a)) wl).
  { unfold tilted. apply map_ext. intros a. f_equal. lra. }
  assert (Epos : 0 < ess) by (unfold ess; rewrite <- Z; apply Kpos).
  pose proof (fun x => objective_kish E wl retain ess x Hne Hw Hl He) as O. fold t in O.
  destruct (progress_core E retain tol mb tmax it ess) as [P1 P2]; auto.
  - fold t. rewrite O, Z. reflexivity.
  - fold t. rewrite !O, Z. fold ess. apply Rplus_lt_compat_r. apply ln_increasing; [apply Kpos|exact Hdec].
  - split; [exact P1|]. set (t' := next_temperature_adaptive retain tol mb tmax E it) in *.
    assert (RE : 0 < retain * ess) by (apply Rmult_lt_0_compat; assumption).
    destruct P2 as [[P2 P3]|P2].
    + left. split; [exact P2|]. rewrite O in P3. rewrite P2.
      apply ln_lt_inv; [exact RE|apply Kpos|]. rewrite (Rmult_comm retain). lra.
    + right. rewrite O in P2. rewrite (Rmult_comm ess) in P2.
      assert (Q : ln (kish (tilted wl (t' - t)) / (retain * ess)) = ln (kish (tilted wl (t' - t))) - ln (retain * ess)).
      { unfold Rdiv. rewrite ln_mult, ln_Rinv by (auto; apply Rinv_0_lt_compat; auto). lra. }
      rewrite <- Q in P2. apply Rabs_def2 in P2.
      assert (D : 0 < kish (tilted wl (t' - t)) / (retain * ess)) by (apply Rdiv_lt_0_compat; auto).
      rewrite <- (exp_ln _ D). split; apply exp_increasing; lra.
Qed.
Print Assumptions C21_progress_partial.

(** Two particles of likelihood potential 0 and ln 2, retain 1/2: one step
    reaches the maximal temperature. *)
Example C21_progress_example :
  let p l := Part (fun _ => 0) (Fin 0) (Fin l) (Fin 0) (fun _ => 0) (fun _ => 0) (fun _ => 0) (Fin 1) 0 (Fin 0) (Fin 2) (Fin 0) in
  let E := [p 0; p (ln 2)] in
  let wl := [(0, 0); (0, ln 2)] in
  (map p_lw E = map (fun a => Fin (fst a)) wl /\ map p_lik E = map (fun a => Fin (snd a)) wl
   /\ p_ess (first E) = Fin (kish (map (fun a => exp (fst a)) wl)) /\ / 10 <= - ln (/ 2)
   /\ kish (tilted wl (1 - p_temp (first E))) < kish (map (fun a => exp (fst a)) wl)
   /\ (biter (bisect (adaptive_objective E (/ 2)) 10 (/ 10) (p_temp (first E)) 1) < 10)%nat)
  /\ next_temperature_adaptive (/ 2) (/ 10) 10 1 E 0 = 1.
Proof.
  cbv zeta. match goal with |- context [first ?e] => set (E := e) end.
  set (wl := [(0, 0); (0, ln 2)]).
  assert (L2 : / 10 < ln 2).
  { rewrite <- (ln_exp (/ 10)). apply ln_increasing; [apply exp_pos|].
    assert (A : 1 + - / 10 < exp (- / 10)) by (apply exp_ineq1; lra).
    assert (B : exp (- / 10) * exp (/ 10) = 1) by (rewrite <- exp_plus, <- exp_0; f_equal; lra).
    assert (0 < exp (/ 10)) by apply exp_pos. nra. }
  assert (K0 : kish (map (fun a => exp (fst a)) wl) = 2).
  { cbn. rewrite exp_0. unfold kish. cbn. lra. }
  assert (K1 : kish (tilted wl 1) = 9 / 5).
  { unfold tilted, wl. cbn. replace (0 - 1 * 0) with 0 by lra. replace (0 - 1 * ln 2) with (- ln 2) by lra.
    rewrite exp_0, exp_Ropp, exp_ln by lra. unfold kish. cbn. field. }
  assert (He : p_ess (first E) = Fin 2) by reflexivity.
  assert (O : forall x, adaptive_objective E (/ 2) x = ln (kish (tilted wl (x - 0))) - ln (2 * / 2)).
  { intros x. apply (objective_kish E wl (/ 2) 2 x); try reflexivity. discriminate. }
  assert (O1 : adaptive_objective E (/ 2) 1 = ln (9 / 5)).
  { rewrite O. replace (1 - 0) with 1 by lra. rewrite K1. replace (2 * / 2) with 1 by lra. rewrite ln_1. lra. }
  assert (O0 : adaptive_objective E (/ 2) 0 = ln 2).
  { rewrite O. replace (2 * / 2) with 1 by lra. rewrite ln_1.
    replace (tilted wl (0 - 0)) with (map (fun a => exp (fst a)) wl).
    - rewrite K0. lra.
    - unfold tilted. apply map_ext. intros a. f_equal. lra. }
  assert (P1 : 0 < ln (9 / 5)) by (rewrite <- ln_1; apply ln_increasing; lra).
  assert (P2 : ln (9 / 5) < ln 2) by (apply ln_increasing; lra).
  assert (B : bisect (adaptive_objective E (/ 2)) 10 (/ 10) 0 1 = bisect_init (adaptive_objective E (/ 2)) 0 1).
  { destruct (bisect_run (adaptive_objective E (/ 2)) 10 (/ 10) ltac:(lra) 0 1) as (k & Ek & _ & _ & A & _).
    destruct k as [|k]; [exact Ek|]. specialize (A 0%nat (Nat.lt_0_succ k)).
    destruct (conv_check_true 10 (/ 10) ltac:(lra) _ A) as (_ & _ & _ & S).
    cbn [bsteps bisect_init e0 e1] in S. rewrite O0, O1 in S. lra. }
  split; [repeat apply conj|].
  - reflexivity.
  - reflexivity.
  - rewrite K0. reflexivity.
  - rewrite ln_Rinv by lra. lra.
  - change (p_temp (first E)) with 0. replace (1 - 0) with 1 by lra. rewrite K0, K1. lra.
  - change (p_temp (first E)) with 0. rewrite B. cbn. lia.
  - unfold next_temperature_adaptive. change (p_temp (first E)) with 0. rewrite B. cbv zeta.
    cbn [bisect_init e0 e1 b0 b1]. rewrite O0, O1.
    replace (Rleb (Rabs (ln 2)) (Rabs (ln (9 / 5)))) with false; [reflexivity|].
    symmetry. apply Rleb_false. rewrite !Rabs_right by lra. exact P2.
Qed.

(** If every particle has the same likelihood potential no progress is made:
    the first temperature is 0, and after one update the likelihood potentials
    are not numbers.  Claims "makes progress" and "reaches the maximum" fail. *)
Lemma stuck_constant E retain tol mb tmax it c :
  0 < tol ->
  (forall x, adaptive_objective E retain x = c) ->
  next_temperature_adaptive retain tol mb tmax E it = p_temp (first E).
Proof.
  intros Ht H. unfold next_temperature_adaptive. cbv zeta.
  set (f := adaptive_objective E retain) in *. set (t := p_temp (first E)).
  destruct (bisect_run f mb tol Ht t tmax) as (k & Ek & Bk & _ & A & _).
  destruct k as [|k].
  - cbn in Ek. rewrite Ek. cbn [b0 b1 e0 e1 bisect_init]. rewrite !H.
    replace (Rleb (Rabs c) (Rabs c)) with true by (symmetry; apply Rleb_true; lra). reflexivity.
  - exfalso. specialize (A 0%nat (Nat.lt_0_succ k)). cbn in A.
    destruct (conv_check_true _ _ Ht _ A) as (_ & _ & _ & S). cbn in S. rewrite !H in S. lra.
Qed.

Theorem C21_progress_refuted :
  exists (prior lik : vec -> key -> xr),
  forall gprior glik categorical normal uniform steps thr retain tol mb vs k st,
  categorical_ok categorical -> vs <> [] -> 0 < tol -> (forall k, 0 <= uniform k < 1) ->
  let next := next_temperature_adaptive retain tol mb 1 in
  let init := smc_startup prior lik gprior glik next vs k st in
  let E1 := fst (smc_update prior categorical (rw_inner normal uniform prior lik steps) next thr (fst init) (snd init)) in
  (forall p, In p (fst init) -> p_temp p = 0)
  /\ forall p, In p E1 -> p_lik p = NaN.
Proof.
  exists (fun _ _ => Fin 0), (fun _ _ => Fin 2).
  intros gprior glik cat normal uniform steps thr retain tol mb vs k st Ok Hv Ht Hu. cbv zeta.
  set (prior := fun (_ : vec) (_ : key) => Fin 0). set (lik := fun (_ : vec) (_ : key) => Fin 2).
  set (next := next_temperature_adaptive retain tol mb 1).
  set (init := smc_startup prior lik gprior glik next vs k st).
  assert (Obj : exists c, forall x, adaptive_objective (smc_prestart prior lik gprior glik vs k) retain x = c).
  { set (E := smc_prestart prior lik gprior glik vs k).
    exists (ln (INR (length vs)) - ln (rval (p_ess (first E)) * retain)). intros x.
    unfold adaptive_objective. f_equal.
    assert (M : map (fun p => xsub (p_lw p) (xmul (Fin (x - p_temp (first E))) (p_lik p))) E
                = repeat (Fin (0 + - ((x - p_temp (first E)) * 2))) (length vs)).
    { rewrite (map_const _ (Fin (0 + - ((x - p_temp (first E)) * 2)))).
      - unfold E. rewrite prestart_length. reflexivity.
      - intros p Hp. apply In_nth with (d := dpart) in Hp. destruct Hp as (i & Hi & <-).
        unfold E in Hi |- *. rewrite prestart_length in Hi. rewrite nth_prestart by exact Hi. reflexivity. }
    rewrite M. set (y := 0 + - ((x - p_temp (first E)) * 2)).
    assert (Hn : (0 < length vs)%nat) by (destruct vs; [congruence|cbn; lia]).
    assert (Okr : lw_ok (repeat (Fin y) (length vs))).
    { split.
      - apply Forall_forall. intros z Hz. apply repeat_spec in Hz. subst z. right. exists y. auto.
      - destruct vs; [congruence|]. cbn. left. exists y. auto. }
    rewrite log_ess_fin by exact Okr. cbn [rval].
    assert (W : weights (repeat (Fin y) (length vs)) = repeat (exp y) (length vs)).
    { unfold weights. clear. induction (length vs); cbn; congruence. }
    rewrite W.
    assert (S1 : forall (c : R) m, Rsum (repeat c m) = INR m * c).
    { intros c m. induction m; [cbn; lra|]. cbn [repeat Rsum]. rewrite IHm, S_INR. lra. }
    assert (S2 : forall (c : R) m, map (fun x => x ^ 2) (repeat c m) = repeat (c ^ 2) m).
    { intros c m. induction m; [reflexivity|cbn [repeat map]; rewrite IHm; reflexivity]. }
    rewrite S2, !S1.
    assert (0 < INR (length vs)) by (apply lt_0_INR; exact Hn).
    pose proof (exp_pos y). rewrite !ln_mult by (auto; nra). replace (exp y ^ 2) with (exp y * exp y) by ring.
    rewrite ln_mult by auto. lra. }
  destruct Obj as (c & Hc).
  assert (T : forall p, In p (fst init) -> p_temp p = 0).
  { intros p Hp. unfold init in Hp. rewrite (startup_temp prior lik next gprior glik vs k st p Hp).
    unfold next. rewrite (stuck_constant _ retain tol mb 1 0 c Ht Hc).
    rewrite first_nth, nth_prestart; [reflexivity|]. destruct vs; [congruence|cbn; lia]. }
  split; [exact T|].
  intros p Hp. apply In_nth with (d := dpart) in Hp. destruct Hp as (i & Hi & <-).
  rewrite update_length in Hi by exact Ok.
  unfold smc_update. cbn [fst].
  rewrite nth_adapt; [|rewrite moved_length, resampled_length by exact Ok; reflexivity|rewrite moved_length by exact Ok; exact Hi].
  rewrite nth_moved by auto. cbn [p_lik].
  assert (T0 : p_temp (first (fst init)) = 0) by (apply T, first_in, startup_nonempty, Hv).
  rewrite T0. unfold forward_proposal.
  set (r := p_value _).
  assert (Pot : snd (fst (fst (rw_inner normal uniform prior lik steps 0 (s_step (snd init))
                (KSplit (s_key (snd init)) (length (fst init) + 2) i) r))) = Fin 0).
  { unfold rw_inner. cbn [fst snd].
    assert (G : forall m ini, rw_pot (core (fst ini)) = Fin 0 ->
       rw_pot (core (fst (iterate (rw_update normal (tpot prior lik 0) uniform) m ini))) = Fin 0).
    { induction m as [|m IH]; intros ini Hini; [exact Hini|]. cbn [iterate].
      specialize (IH ini Hini).
      rewrite (rw_update_core normal (tpot prior lik 0) uniform).
      destruct (xltb _ _); [|exact IH]. cbn. f_equal. lra. }
    apply G. cbn. f_equal. lra. }
  destruct (rw_inner normal uniform prior lik steps 0 (s_step (snd init))
              (KSplit (s_key (snd init)) (length (fst init) + 2) i) r) as [[[v pot] al] fk].
  cbn in Pot |- *. subst pot. cbn. destruct (Req_EM_T 0 0); [|lra].
  replace (0 + - 0) with 0 by lra.
  destruct (Rlt_dec 0 0); [lra|]. reflexivity.
Qed.
Print Assumptions C21_progress_refuted.

(** * C22 *)
(** One step, any log weights (minus infinity allowed) and likelihood
    potentials (plus infinity allowed): the recorded log normalising constant
    of every particle increases by the log of the mean of
    exp(-(t' - t) * likelihood potential) under the weights in force: equal
    ones when the ensemble is resampled, the recorded ones otherwise. *)
Theorem C22_increment :
  forall prior categorical inner next thr (E : ensemble) (e : sextra) (i : nat),
  categorical_ok categorical -> E <> [] -> shared E -> (i < length E)%nat ->
  lw_ok (map p_lw E) ->
  let E' := fst (smc_update prior categorical inner next thr E e) in
  List.Forall (fun x => x = NInf \/ finite x) (increments E E') ->
  List.Exists finite (map p_lw E') ->
  p_lnc (nth i E' dpart)
  = xadd (p_lnc (first E)) (Fin (ln (weighted_mean (weights_used thr E) (weights (increments E E'))))).
Proof.
  intros prior cat inner next thr E e i Ok Hne Sh Hi Hw E' Hinc Hex.
  apply lnc_increment; auto.
  rewrite resampled_lw by exact Ok. destruct (resample_criterion thr E); [|exact Hw].
  split.
  - apply Forall_forall. intros x Hx. apply repeat_spec in Hx. subst x. right. exists 0. reflexivity.
  - destruct E; [congruence|]. cbn. left. exists 0. reflexivity.
Qed.
Print Assumptions C22_increment.

Section Real.
  Variable fp fl : vec -> R.
  Variable categorical : key -> list xr -> nat -> list nat.
  Variable inner : R -> R -> key -> vec -> (vec * xr * xr) * key.
  Variable next : ensemble -> nat -> R.
  Variable thr : R.
  Variable gprior glik : vec -> key -> vec.
  Hypothesis cat_ok : categorical_ok categorical.
  Notation prior := (fun (v : vec) (_ : key) => Fin (fp v)).
  Notation lik := (fun (v : vec) (_ : key) => Fin (fl v)).
  Hypothesis in_ok : inner_ok prior lik inner.
  Notation update := (smc_update prior categorical inner next thr).

  Definition lwf (E : ensemble) : Prop := forall p, In p E -> finite (p_lw p).

  Lemma real_ok (f : vec -> R) : potential_ok (fun v _ => Fin (f v)).
  Proof. intros v. exists (Fin (f v)). split; [left; exists (f v); reflexivity|auto]. Qed.

  Lemma incs_real E (E' : ensemble) : good prior lik E' ->
    increments E E' = map (fun p => Fin (- (p_temp (first E') - p_temp (first E)) * fl (p_value p))) E'.
  Proof.
    intros G. unfold increments. apply map_ext_in. intros p Hp.
    destruct (G p Hp) as [C _]. destruct (C (KRoot 0)) as (_ & -> & _). reflexivity.
  Qed.

  Lemma lwf_ok E : E <> [] -> lwf E -> lw_ok (map p_lw E).
  Proof.
    intros Hne H. split.
    - apply Forall_forall. intros x Hx. apply in_map_iff in Hx. destruct Hx as (p & <- & Hp). right. apply H, Hp.
    - destruct E as [|p E]; [congruence|]. left. apply H. left. reflexivity.
  Qed.

  Lemma lwf_update E e : E <> [] -> shared E -> lwf E -> good prior lik (fst (update E e)) -> lwf (fst (update E e)).
  Proof.
    intros Hne Sh L G p Hp.
    assert (In (p_lw p) (map p_lw (fst (update E e)))) by (apply in_map, Hp).
    rewrite new_lw_increments in H by auto. rewrite incs_real in H by exact G.
    apply in_map_iff in H. destruct H as ([a b] & <- & Hab). cbn.
    pose proof (in_combine_l _ _ _ _ Hab) as Ha. apply in_combine_r in Hab.
    apply in_map_iff in Hab. destruct Hab as (q & <- & _).
    assert (F : finite a).
    { rewrite resampled_lw in Ha by exact cat_ok. destruct (resample_criterion thr E).
      - apply repeat_spec in Ha. subst a. exists 0. reflexivity.
      - apply in_map_iff in Ha. destruct Ha as (q' & <- & Hq'). apply L, Hq'. }
    destruct F as [r ->]. cbn. eexists. reflexivity.
  Qed.

  Lemma logmeanexp_real n (l : list R) : l <> [] -> (0 < n)%nat ->
    logmeanexp n (map Fin l) = Fin (ln (Rsum (map exp l) / INR n)) /\ 0 < Rsum (map exp l) / INR n.
  Proof.
    intros Hl Hn. assert (Hn' : 0 < INR n) by (apply lt_0_INR; exact Hn).
    assert (S : forall l : list R, xsum (map (fun x => xmul (Fin (/ INR n)) (xexp x)) (map Fin l)) = Fin (Rsum (map exp l) / INR n)).
    { clear Hl l. intros l. unfold xsum. induction l as [|x l IH]; [cbn; f_equal; lra|].
      cbn [map fold_right]. rewrite IH. cbn. f_equal. field. lra. }
    assert (P : 0 < Rsum (map exp l)).
    { destruct l as [|x l]; [congruence|]. cbn. pose proof (exp_pos x).
      assert (0 <= Rsum (map exp l)); [|lra].
      clear. induction l as [|y l IH]; cbn; [lra|]. pose proof (exp_pos y). lra. }
    assert (Q : 0 < Rsum (map exp l) / INR n) by (apply Rdiv_lt_0_compat; auto).
    split; [|exact Q]. unfold logmeanexp. rewrite S. unfold xlog.
    repeat match goal with |- context [if ?b then _ else _] => destruct b end; try lra; reflexivity.
  Qed.
End Real.

(** A whole run, real-valued potentials: the recorded log normalising constants
    are the logs of z_0, z_1, ... with z_0 the mean of
    exp(-T_0 * likelihood potential) over the initial particles and
    z_(j+1) = z_j * the weighted mean of
    exp(-(T_(j+1) - T_j) * likelihood potential) over step j+1's particles. *)
Theorem C22_run :
  forall (fp fl : vec -> R) categorical inner next thr gprior glik max_iter tmax vs k st,
  let prior := fun (v : vec) (_ : key) => Fin (fp v) in
  let lik := fun (v : vec) (_ : key) => Fin (fl v) in
  categorical_ok categorical -> inner_ok prior lik inner -> vs <> [] ->
  let chain := smc_run prior categorical inner next thr max_iter tmax
                 (smc_startup prior lik gprior glik next vs k st) in
  let T j := nth j (clean_temperatures chain) 0 in
  List.Forall (fun t => 0 < t) (clean_temperatures chain) ->
  exists z : nat -> R,
    (forall j, (j < length chain)%nat -> 0 < z j /\ nth j (clean_lnc chain) NaN = Fin (ln (z j)))
    /\ z 0%nat = Rsum (map (fun v => exp (- T 0%nat * fl v)) vs) / INR (length vs)
    /\ (forall j, (S j < length chain)%nat ->
         z (S j) = z j * weighted_mean (weights_used thr (nth j chain []))
                           (map (fun p => exp (- (T (S j) - T j) * fl (p_value p))) (nth (S j) chain []))).
Proof.
  intros fp fl cat inner next thr gprior glik mi tmax vs k st prior lik Ok Iok Hv chain T Tp.
  set (init := smc_startup prior lik gprior glik next vs k st) in *.
  set (upd := smc_update prior cat inner next thr).
  assert (Hch : exists m, chain = map (fun j => fst (iterate upd j init)) (seq 0 (S m))).
  { unfold chain, smc_run. destruct (C01_run_is_while_loop _ _ (fun E e => Rleb tmax (p_temp (first E)) || (mi <=? s_iter e)%nat) upd init mi) as (m & (_ & Hr) & _).
    exists m. exact Hr. }
  destruct Hch as (m & Hch).
  set (E := fun j => fst (iterate upd j init)).
  assert (Len : length chain = S m) by (rewrite Hch, map_length, seq_length; reflexivity).
  assert (NC : forall j, (j < S m)%nat -> nth j chain [] = E j).
  { intros j Hj. rewrite Hch. rewrite (nth_indep _ [] (E 0%nat)) by (rewrite map_length, seq_length; exact Hj).
    rewrite (map_nth E), seq_nth by exact Hj. reflexivity. }
  assert (TC : forall j, (j < S m)%nat -> T j = p_temp (first (E j))).
  { intros j Hj. unfold T, clean_temperatures.
    rewrite (nth_indep _ 0 (p_temp (first []))) by (rewrite map_length, Len; exact Hj).
    rewrite (map_nth (fun E => p_temp (first E))), NC by exact Hj. reflexivity. }
  assert (TPos : forall j, (j < S m)%nat -> 0 < p_temp (first (E j))).
  { intros j Hj. rewrite <- TC by exact Hj. unfold T. rewrite Forall_forall in Tp. apply Tp, nth_In.
    unfold clean_temperatures. rewrite map_length, Len. exact Hj. }
  assert (Pok : potential_ok prior) by apply real_ok.
  assert (Lok : potential_ok lik) by apply real_ok.
  assert (Ne : forall j, E j <> []) by (intros j; apply iterate_nonempty; [exact Ok|apply startup_nonempty; exact Hv]).
  assert (Sh : forall j, shared (E j)) by (intros j; apply iterate_shared; [exact Ok|apply startup_shared]).
  assert (G : forall j, (j < S m)%nat -> good prior lik (E j)).
  { intros j Hj. apply iterate_good; auto.
    - apply startup_nonempty; exact Hv.
    - apply startup_good; auto. intros v _. exists k. exists (fp v). reflexivity.
    - intros i Hi. apply TPos. lia. }
  (* startup *)
  assert (V0 : map p_value (E 0%nat) = vs).
  { apply nth_ext with (d := p_value dpart) (d' := fun _ => 0).
    - rewrite map_length. apply startup_length.
    - intros i Hi. rewrite map_length in Hi. unfold E, init in Hi. cbn [iterate] in Hi. rewrite startup_length in Hi.
      rewrite map_nth. unfold E, init. cbn [iterate]. rewrite nth_startup by exact Hi. cbv zeta. cbn [p_value].
      rewrite nth_prestart by exact Hi. reflexivity. }
  set (t0 := next (smc_prestart prior lik gprior glik vs k) 0%nat).
  assert (T0 : forall p, In p (E 0%nat) -> p_temp p = t0) by (intros p Hp; apply (startup_temp prior lik next gprior glik vs k st); exact Hp).
  assert (LK : map p_lik (smc_prestart prior lik gprior glik vs k) = map (fun v => Fin (fl v)) vs).
  { apply nth_ext with (d := p_lik dpart) (d' := Fin (fl (fun _ => 0))).
    - rewrite !map_length. apply prestart_length.
    - intros i Hi. rewrite map_length, prestart_length in Hi.
      rewrite map_nth, (map_nth (fun v => Fin (fl v))), nth_prestart by exact Hi. reflexivity. }
  assert (LW0 : map (fun p => xmul (Fin (- t0)) (p_lik p)) (smc_prestart prior lik gprior glik vs k)
                = map Fin (map (fun v => - t0 * fl v) vs)).
  { rewrite <- (map_map p_lik (xmul (Fin (- t0)))), LK, !map_map. reflexivity. }
  assert (Npos : (0 < length vs)%nat) by (destruct vs; [congruence|cbn; lia]).
  assert (Lw : forall j, (j < S m)%nat -> lwf (E j)).
  { induction j as [|j IH]; intros Hj.
    - intros p Hp. apply In_nth with (d := dpart) in Hp. destruct Hp as (i & Hi & <-).
      unfold E, init in Hi |- *. cbn [iterate] in Hi |- *. rewrite startup_length in Hi.
      rewrite nth_startup by exact Hi. cbv zeta. cbn [p_lw]. rewrite nth_prestart by exact Hi. cbn. eexists. reflexivity.
    - unfold E. cbn [iterate]. apply (lwf_update fp fl cat inner next thr Ok).
      + apply (Ne j).
      + apply (Sh j).
      + apply IH. lia.
      + apply (G (S j) Hj). }
  destruct (logmeanexp_real (length vs) (map (fun v => - t0 * fl v) vs)) as [Z0 Z0p].
  { destruct vs; [congruence|discriminate]. } { exact Npos. }
  set (W := fun j => weighted_mean (weights_used thr (E j))
                 (map (fun p => exp (- (p_temp (first (E (S j))) - p_temp (first (E j))) * fl (p_value p))) (E (S j)))).
  set (z := fix z (j : nat) : R := match j with
     | 0%nat => Rsum (map exp (map (fun v => - t0 * fl v) vs)) / INR (length vs)
     | S j' => z j' * W j' end).
  assert (Inc : forall j, (S j < S m)%nat -> 0 < W j /\ p_lnc (first (E (S j))) = xadd (p_lnc (first (E j))) (Fin (ln (W j)))).
  { intros j Hj.
    assert (L1 : lw_ok (map p_lw (E j))) by (apply lwf_ok; [apply Ne|apply Lw; lia]).
    assert (L2 : lw_ok (map p_lw (E (S j)))) by (apply lwf_ok; [apply Ne|apply Lw; lia]).
    assert (I : increments (E j) (E (S j)) = map (fun p => Fin (- (p_temp (first (E (S j))) - p_temp (first (E j))) * fl (p_value p))) (E (S j)))
      by (apply (incs_real fp fl), G; exact Hj).
    assert (WI : weights (increments (E j) (E (S j)))
       = map (fun p => exp (- (p_temp (first (E (S j))) - p_temp (first (E j))) * fl (p_value p))) (E (S j))).
    { rewrite I. unfold weights. rewrite map_map. reflexivity. }
    split.
    - unfold W, weighted_mean.
      assert (PW : forall w, In w (weights_used thr (E j)) -> 0 < w).
      { assert (A : forall w, In w (weights (map p_lw (E j))) -> 0 < w).
        { intros w Hw. unfold weights in Hw. rewrite map_map in Hw. apply in_map_iff in Hw. destruct Hw as (p & <- & Hp).
          destruct (Lw j ltac:(lia) p Hp) as [r Er]. rewrite Er. apply exp_pos. }
        assert (B : forall w n, In w (repeat 1 n) -> 0 < w) by (intros w n Hw; apply repeat_spec in Hw; lra).
        intros w Hw. unfold weights_used in Hw. destruct (p_ess (first (E j))); eauto.
        destruct (Rle_dec _ _); eauto. }
      assert (LU : length (weights_used thr (E j)) = length (E (S j))).
      { assert (length (E (S j)) = length (E j)) by (unfold E; cbn [iterate]; apply update_length; exact Ok).
        rewrite H. unfold weights_used. destruct (p_ess _); try destruct (Rle_dec _ _);
          unfold weights; rewrite ?map_length, ?repeat_length; reflexivity. }
      set (ws := weights_used thr (E j)) in *. clearbody ws.
      set (g := fun p : part => exp (- (p_temp (first (E (S j))) - p_temp (first (E j))) * fl (p_value p))).
      assert (Pg : forall p, 0 < g p) by (intros p; apply exp_pos).
      clearbody g. pose proof (Ne (S j)) as N. set (F := E (S j)) in *. clearbody F. clear -PW LU Pg N.
      assert (0 < Rsum ws /\ 0 < Rsum (map (fun wx => fst wx * snd wx) (combine ws (map g F)))).
      { revert F LU N. induction ws as [|w ws IH]; intros [|p F] L N; try discriminate; [congruence|].
        cbn [map combine Rsum fst snd].
        assert (0 < w) by (apply PW; left; reflexivity). pose proof (Pg p).
        destruct F as [|q F].
        - destruct ws; [|discriminate]. cbn. split; nra.
        - destruct (IH (fun x Hx => PW x (or_intror Hx)) (q :: F) ltac:(cbn in *; lia) ltac:(discriminate)). split; nra. }
      apply Rdiv_lt_0_compat; apply H.
    - rewrite (first_nth (E (S j))).
      change (nth 0 (E (S j)) dpart) with (nth 0 (fst (smc_update prior cat inner next thr (E j) (snd (iterate upd j init)))) dpart).
      rewrite (C22_increment prior cat inner next thr (E j) (snd (iterate upd j init)) 0%nat Ok (Ne j) (Sh j)); auto.
      + change (fst (smc_update prior cat inner next thr (E j) (snd (iterate upd j init)))) with (E (S j)).
        rewrite WI. reflexivity.
      + pose proof (Ne j). destruct (E j); [congruence|cbn; lia].
      + change (fst (smc_update prior cat inner next thr (E j) (snd (iterate upd j init)))) with (E (S j)).
        rewrite I. apply Forall_forall. intros x Hx. apply in_map_iff in Hx. destruct Hx as (p & <- & _). right. eexists; reflexivity.
      + apply L2. }
  exists z. split; [|split].
  - rewrite Len. intros j Hj.
    assert (NL : nth j (clean_lnc chain) NaN = p_lnc (first (E j))).
    { unfold clean_lnc. rewrite (nth_indep _ NaN (p_lnc (first []))) by (rewrite map_length, Len; exact Hj).
      rewrite (map_nth (fun E => p_lnc (first E))), NC by exact Hj. reflexivity. }
    rewrite NL. clear NL. induction j as [|j IH].
    + split; [exact Z0p|]. rewrite first_nth. unfold E, init. cbn [iterate]. rewrite nth_startup by exact Npos.
      cbv zeta. cbn [p_lnc]. fold t0. rewrite LW0. exact Z0.
    + destruct (IH ltac:(lia)) as [I1 I2]. destruct (Inc j Hj) as [J1 J2].
      change (z (S j)) with (z j * W j). split; [apply Rmult_lt_0_compat; assumption|].
      rewrite J2, I2, ln_mult by assumption. reflexivity.
  - cbn [z]. rewrite map_map. rewrite (TC 0%nat) by lia. rewrite (T0 (first (E 0%nat))) by (apply first_in, Ne). reflexivity.
  - rewrite Len. intros j Hj. change (z (S j)) with (z j * W j).
    rewrite !NC, !TC by lia. reflexivity.
Qed.
Print Assumptions C22_run.

(** The hypotheses of C22_run and C24 hold of a random walk inside SMC: two
    particles, quadratic likelihood, schedule 1/4, 1. *)
Example C22_example :
  let fp := fun _ : vec => 0 in
  let fl := fun v : vec => v 0%nat * v 0%nat in
  let prior := fun (v : vec) (_ : key) => Fin (fp v) in
  let lik := fun (v : vec) (_ : key) => Fin (fl v) in
  let inner := rw_inner (fun _ _ => 1) (fun _ => 0) prior lik 3 in
  let chain := smc_run prior cat_first inner (scheduled [/ 4; 1]) (/ 2) 2 1
                 (smc_startup prior lik (fun _ _ _ => 0) (fun v _ _ => 2 * v 0%nat) (scheduled [/ 4; 1])
                    [(fun _ => 0); (fun _ => 1)] (KRoot 0) 1) in
  categorical_ok cat_first /\ inner_ok prior lik inner /\ clean_temperatures chain = [/ 4; 1].
Proof.
  cbv zeta. split; [exact cat_first_ok|]. split.
  - apply rw_inner_ok; [intros; lra| |]; intros v; eexists; (split; [left; eexists; reflexivity|reflexivity]).
  - eapply (proj1 (C20_whole_schedule _ _ _ _ cat_first _ _ (TSampler 2 1 (Some [/ 4; 1])) [/ 4; 1]
             [(fun _ => 0); (fun _ => 1)] (KRoot 0) 1 cat_first_ok ltac:(discriminate) eq_refl ltac:(discriminate) eq_refl eq_refl _)).
    Unshelve.
    intros [|j] Hj; cbn in *; [lra|lia].
Qed.

(** * C24 *)
Theorem C24_potentials_consistent :
  forall prior lik categorical inner next thr gprior glik max_iter tmax vs k st,
  categorical_ok categorical -> inner_ok prior lik inner -> potential_ok prior -> potential_ok lik ->
  vs <> [] -> (forall v, In v vs -> finite (prior v k)) ->
  let chain := smc_run prior categorical inner next thr max_iter tmax
                 (smc_startup prior lik gprior glik next vs k st) in
  List.Forall (fun t => 0 < t) (clean_temperatures chain) ->
  forall E p, In E chain -> In p E ->
    p_temp p = p_temp (first E)
    /\ forall k', p_prior p = prior (p_value p) k'
               /\ p_lik p = lik (p_value p) k'
               /\ p_pot p = xadd (prior (p_value p) k') (xmul (Fin (p_temp p)) (lik (p_value p) k')).
Proof.
  intros prior lik cat inner next thr gprior glik mi tmax vs k st Ok Iok Pok Lok Hv Hf chain Tp E p HE Hp.
  set (init := smc_startup prior lik gprior glik next vs k st) in *.
  set (upd := smc_update prior cat inner next thr).
  destruct (C01_run_is_while_loop _ _ (fun E e => Rleb tmax (p_temp (first E)) || (mi <=? s_iter e)%nat) upd init mi) as (m & (_ & Hr) & _).
  assert (Hch : chain = map (fun j => fst (iterate upd j init)) (seq 0 (S m))) by exact Hr.
  rewrite Hch in HE. apply in_map_iff in HE. destruct HE as (j & <- & Hj). apply in_seq in Hj.
  assert (Ne : forall j, fst (iterate upd j init) <> []) by (intros i; apply iterate_nonempty; [exact Ok|apply startup_nonempty; exact Hv]).
  split.
  - assert (Sh : shared (fst (iterate upd j init))) by (apply iterate_shared; [exact Ok|apply startup_shared]).
    apply Sh; [exact Hp|apply first_in, Ne].
  - assert (G : good prior lik (fst (iterate upd j init))).
    { apply iterate_good; auto.
      - apply startup_nonempty; exact Hv.
      - apply startup_good; auto. intros v Hin. exists k. apply Hf; exact Hin.
      - intros i Hi. rewrite Forall_forall in Tp. apply Tp. unfold clean_temperatures. rewrite Hch, map_map.
        apply in_map_iff. exists i. split; [reflexivity|]. apply in_seq. lia. }
    destruct (G p Hp) as [C _]. exact C.
Qed.
Print Assumptions C24_potentials_consistent.

(** In particular with RandomWalk and Metropolis as the inner sampler. *)
Theorem C24_random_walk :
  forall prior lik categorical normal uniform steps next thr gprior glik max_iter tmax vs k st,
  categorical_ok categorical -> (forall k, 0 <= uniform k < 1) -> potential_ok prior -> potential_ok lik ->
  vs <> [] -> (forall v, In v vs -> finite (prior v k)) ->
  let chain := smc_run prior categorical (rw_inner normal uniform prior lik steps) next thr max_iter tmax
                 (smc_startup prior lik gprior glik next vs k st) in
  List.Forall (fun t => 0 < t) (clean_temperatures chain) ->
  forall E p, In E chain -> In p E ->
    forall k', p_prior p = prior (p_value p) k'
               /\ p_lik p = lik (p_value p) k'
               /\ p_pot p = xadd (prior (p_value p) k') (xmul (Fin (p_temp p)) (lik (p_value p) k')).
Proof.
  intros prior lik cat normal uniform steps next thr gprior glik mi tmax vs k st Ok Hu Pok Lok Hv Hf chain Tp E p HE Hp.
  eapply (C24_potentials_consistent prior lik cat (rw_inner normal uniform prior lik steps) next thr gprior glik mi tmax vs k st); eauto.
  apply rw_inner_ok; assumption.
Qed.
Print Assumptions C24_random_walk.

(** The potentials of C22_example meet the hypotheses of C24_random_walk. *)
Example C24_example :
  potential_ok (fun (v : vec) (_ : key) => Fin (v 0%nat * v 0%nat))
  /\ potential_ok (fun (v : vec) (_ : key) => if Rlt_dec (v 0%nat) 0 then PInf else Fin 0)
  /\ (forall v, In v [(fun _ => 0) : vec; (fun _ => 1)] ->
        finite ((fun (v : vec) (_ : key) => if Rlt_dec (v 0%nat) 0 then PInf else Fin 0) v (KRoot 0))).
Proof.
  split; [|split].
  - intros v. eexists. split; [left; eexists; reflexivity|reflexivity].
  - intros v. destruct (Rlt_dec (v 0%nat) 0).
    + exists PInf. split; auto.
    + exists (Fin 0). split; auto. left. exists 0. reflexivity.
  - intros v [<-|[<-|[]]]; destruct (Rlt_dec _ _); try lra; exists 0; reflexivity.
Qed.

(** * C32 *)
(** SMC with RandomWalk inside: there is a list of keys, none derived from
    another, outside which [m] updates of [n] particles read no randomness. *)
Theorem C32_smc_keys :
  forall (steps n m : nat) (k : key), exists draws : list key,
  length draws = (m * (1 + n * (3 * steps + 2)))%nat /\ antichain draws
  /\ forall normal normal' uniform uniform' prior prior' lik lik' cat cat' next thr (E : ensemble) it rs st,
     categorical_ok cat -> length E = n ->
     (forall k', In k' draws -> normal k' = normal' k' /\ uniform k' = uniform' k'
         /\ (forall v, prior v k' = prior' v k') /\ (forall v, lik v k' = lik' v k')
         /\ (forall lw j, cat k' lw j = cat' k' lw j)) ->
     iterate (smc_update prior cat (rw_inner normal uniform prior lik steps) next thr) m (E, SExtra it k rs st)
     = iterate (smc_update prior' cat' (rw_inner normal' uniform' prior' lik' steps) next thr) m (E, SExtra it k rs st).
Proof.
  intros steps n m k. exists (run_draws (smc_draws steps n) (smc_next_key n) m k). split; [|split].
  - assert (R : forall j k0, length (run_draws rw_draws rw_next_key j k0) = (3 * j)%nat).
    { induction j; intros k0; [reflexivity|].
      change (run_draws rw_draws rw_next_key (S j) k0) with (rw_draws k0 ++ run_draws rw_draws rw_next_key j (rw_next_key k0)).
      rewrite app_length, IHj. change (length (rw_draws k0)) with 3%nat. lia. }
    assert (I : forall pk, length (inner_draws steps pk) = (3 * steps + 2)%nat).
    { intros pk. unfold inner_draws. cbn [length]. rewrite app_length, R. cbn. lia. }
    assert (D : forall k0, length (smc_draws steps n k0) = (1 + n * (3 * steps + 2))%nat).
    { intros k0. unfold smc_draws. cbn [length].
      assert (G : forall a b, length (flat_map (fun i => inner_draws steps (KSplit k0 (n + 2) i)) (seq a b)) = (b * (3 * steps + 2))%nat).
      { intros a b. revert a. induction b; intros a; [reflexivity|]. cbn [seq flat_map]. rewrite app_length, IHb, I. lia. }
      rewrite G. lia. }
    revert k. induction m; intros k; [reflexivity|].
    change (run_draws (smc_draws steps n) (smc_next_key n) (S m) k)
      with (smc_draws steps n k ++ run_draws (smc_draws steps n) (smc_next_key n) m (smc_next_key n k)).
    rewrite app_length, IHm, D. lia.
  - apply pairwise_antichain, smc_draws_ok.
  - intros normal normal' uniform uniform' prior prior' lik lik' cat cat' next thr E it rs st Ok Hn A.
    apply (smc_iterate_local steps normal normal' uniform uniform' prior prior' lik lik' cat cat' next thr n m Ok (E, SExtra it k rs st) Hn).
    + intros k' Hk. destruct (A k' Hk) as (A1 & A2 & A3 & A4 & _). auto.
    + intros k' lw j Hk. apply A; exact Hk.
Qed.
Print Assumptions C32_smc_keys.

(** At startup the same key is handed to the potential of every particle: with
    a random potential all particles get the same noise. *)
Theorem C32_smc_startup_refuted :
  exists (k1 : key), forall prior lik gprior glik next v1 v2 st,
  let k := KRoot 0 in
  let E := fst (smc_startup prior lik gprior glik next [v1; v2] k st) in
  let t := next (smc_prestart prior lik gprior glik [v1; v2] k) 0%nat in
  p_pot (nth 0 E dpart) = tpot prior lik t v1 k1 /\ p_pot (nth 1 E dpart) = tpot prior lik t v2 k1.
Proof.
  exists (KSplit (KSplit (KRoot 0) 5 4) 2 1). intros. split; reflexivity.
Qed.
Print Assumptions C32_smc_startup_refuted.

(** * C54 *)
(** With RandomWalk inside SMC the particles keep the gradients of earlier
    values: for the potential x^2/2 the particle that moved from 0 to 1 still
    carries gradient 0. *)
Theorem C54_stale_gradient_refuted :
  exists (prior lik : vec -> key -> xr) (gprior glik : vec -> key -> vec),
    (forall v k, prior v k = Fin 0 /\ gprior v k = (fun _ => 0)
       /\ lik v k = Fin (v 0%nat * v 0%nat / 2) /\ glik v k = (fun i => if Nat.eqb i 0 then v 0%nat else 0))
    /\ exists p, In p (fst (iterate
           (smc_update prior cat_first (rw_inner (fun _ _ => 1) (fun _ => 0) prior lik 1) (scheduled [/ 2; 1]) (/ 2)) 1
           (smc_startup prior lik gprior glik (scheduled [/ 2; 1]) [fun _ => 0] (KRoot 0) 1)))
       /\ p_value p 0%nat = 1 /\ p_glik p 0%nat = 0 /\ p_gpot p 0%nat = 0.
Proof.
  set (prior := fun (_ : vec) (_ : key) => Fin 0).
  set (lik := fun (v : vec) (_ : key) => Fin (v 0%nat * v 0%nat / 2)).
  set (gprior := fun (_ : vec) (_ : key) (_ : nat) => 0).
  set (glik := fun (v : vec) (_ : key) (i : nat) => if Nat.eqb i 0 then v 0%nat else 0).
  exists prior, lik, gprior, glik. split; [auto|].
  set (init := smc_startup prior lik gprior glik (scheduled [/ 2; 1]) [fun _ => 0] (KRoot 0) 1).
  exists (nth 0 (fst (smc_update prior cat_first (rw_inner (fun _ _ => 1) (fun _ => 0) prior lik 1) (scheduled [/ 2; 1]) (/ 2)
             (fst init) (snd init))) dpart).
  cbn [iterate].
  assert (Hl : length (fst init) = 1%nat) by reflexivity.
  split; [apply nth_In; rewrite update_length by exact cat_first_ok; rewrite Hl; lia|].
  unfold smc_update. cbn [fst].
  rewrite nth_adapt; [| rewrite moved_length, resampled_length by exact cat_first_ok; reflexivity
                      | rewrite moved_length by exact cat_first_ok; rewrite Hl; lia].
  rewrite nth_moved by (try exact cat_first_ok; rewrite Hl; lia).
  cbn [p_value p_glik p_gpot].
  set (q := nth 0 (resampled_ensemble cat_first (/ 2) (fst init) (snd init)) dpart).
  assert (Hq : p_value q = (fun _ => 0) /\ p_glik q = (fun i => if Nat.eqb i 0 then 0 else 0) /\ p_gprior q = (fun _ => 0)).
  { unfold q, resampled_ensemble. destruct (resample_criterion _ _); [|repeat split; reflexivity].
    destruct (C19_resampled_particles cat_first (fst init) (KSplit (s_key (snd init)) (length (fst init) + 2) (length (fst init))) cat_first_ok)
      as [_ C]. destruct (C 0%nat ltac:(rewrite Hl; lia)) as (j & Hj & _ & (-> & _ & _ & _ & -> & -> & _) & _).
    rewrite Hl in Hj. assert (j = 0)%nat by lia. subst j. repeat split; reflexivity. }
  destruct Hq as (Q1 & Q2 & Q3).
  assert (V : fst (fst (fst (rw_inner (fun _ _ => 1) (fun _ => 0) prior lik 1 (p_temp (first (fst init))) (s_step (snd init))
              (KSplit (s_key (snd init)) (length (fst init) + 2) 0) (p_value q)))) 0%nat = 1).
  { rewrite Q1. unfold rw_inner. cbn [fst snd iterate]. rewrite (rw_update_core _ _ _ _ _).
    match goal with |- context [xltb ?a ?b] => assert (X : xltb a b = true) end.
    { cbn. match goal with |- context [exp ?e] => pose proof (exp_pos e) as Pe; set (ee := exp e) in * end.
      destruct (Rleb 1 ee); cbn; apply Rltb_true; lra. }
    rewrite X. cbn. rewrite sqrt_1. lra. }
  unfold forward_proposal.
  destruct (rw_inner _ _ _ _ _ _ _ _ _) as [[[v pot] al] fk]. cbn in V |- *.
  split; [exact V|]. rewrite Q2, Q3. cbn. split; [reflexivity|lra].
Qed.
Print Assumptions C54_stale_gradient_refuted.

(** * C55: the step size of the Robbins-Monro SMC sampler *)
Theorem C55_rm_smc_step :
  forall (rm target : R) (E : ensemble) (step lo hi : R),
  E <> [] -> 0 < step -> 0 < rm ->
  (forall p, In p E -> lo <= rval (p_alpha p) <= hi) ->
  lo <= alpha_average E <= hi
  /\ 0 < rm_smc_step rm target E step
  /\ (step < rm_smc_step rm target E step <-> target < alpha_average E)
  /\ (rm_smc_step rm target E step < step <-> alpha_average E < target)
  /\ step * exp (rm * (lo - target)) <= rm_smc_step rm target E step <= step * exp (rm * (hi - target)).
Proof.
  intros rm target E step lo hi Hne Hs Hr Ha.
  assert (A : lo <= alpha_average E <= hi).
  { unfold alpha_average. set (m := fold_right Rmax _ _).
    set (f := fun p => exp (rval (p_lw p) - m)).
    assert (Pf : forall p, 0 < f p) by (intros; apply exp_pos). clearbody f. clear m.
    assert (Q : 0 < fold_right Rplus 0 (map f E)
      /\ lo * fold_right Rplus 0 (map f E)
         <= fold_right Rplus 0 (map (fun wp => fst wp * rval (p_alpha (snd wp))) (combine (map f E) E))
         <= hi * fold_right Rplus 0 (map f E)).
    { clear -Hne Ha Pf. induction E as [|p E IH]; [congruence|]. cbn [map combine fold_right fst snd].
      pose proof (Ha p (or_introl eq_refl)). pose proof (Pf p).
      destruct E as [|q E]; [cbn; nra|].
      destruct IH as (I1 & I2); [discriminate|intros x Hx; apply Ha; right; exact Hx|]. nra. }
    destruct Q as (Q0 & Q1). split; [apply Rle_div_r|apply Rle_div_l]; lra. }
  assert (S : rm_smc_step rm target E step = step * exp (rm * (alpha_average E - target))).
  { unfold rm_smc_step. rewrite exp_plus, exp_ln by exact Hs. reflexivity. }
  assert (X0 : exp 0 = 1) by apply exp_0.
  split; [exact A|]. rewrite S. split; [apply Rmult_lt_0_compat; [exact Hs|apply exp_pos]|].
  assert (Inc : forall a b, a < b -> exp a < exp b) by (intros; apply exp_increasing; assumption).
  assert (IncE : forall a b, a <= b -> exp a <= exp b).
  { intros a b [H|H]; [left; auto|subst; right; reflexivity]. }
  split; [|split].
  - split; intros H.
    + apply Rnot_le_lt. intros C. assert (exp (rm * (alpha_average E - target)) <= exp 0) by (apply IncE; nra). nra.
    + assert (exp 0 < exp (rm * (alpha_average E - target))) by (apply Inc; nra). nra.
  - split; intros H.
    + apply Rnot_le_lt. intros C. assert (exp 0 <= exp (rm * (alpha_average E - target))) by (apply IncE; nra). nra.
    + assert (exp (rm * (alpha_average E - target)) < exp 0) by (apply Inc; nra). nra.
  - split; apply Rmult_le_compat_l; try lra; apply IncE; nra.
Qed.
Print Assumptions C55_rm_smc_step.

Example C55_example : alpha_average [ex_part 1 (Fin 0); ex_part 2 (Fin 0)] = 1.
Proof. unfold alpha_average. cbn. unfold Rmax. repeat destruct (Rle_dec _ _); field; pose proof (exp_pos (0-0)); lra. Qed.
