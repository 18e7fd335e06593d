(** Theorems on ensemble Kalman inversion: C25 (schedule), C81 (temperatures)
    and C32 (keys). *)
From Coq Require Import Reals List Arith Lra Lia ZArith Bool.
From mathcomp Require matrix.
From Verif Require Import XR Keys RStruct LoopModel LoopSpec LoopProps McmcModel McmcSpec McmcProofs WeightsModel WeightsSpec WeightsProofs
  BisectModel BisectProofs BisectProps TekiTempModel TekiModel TekiProofs TekiTemps.
Import ListNotations.
Open Scope R_scope.
Notation mat a b := (matrix.matrix R a b).

(** * C25 *)
(** What a sampler made with a schedule does: after the initial temperature 0
    the recorded temperatures are the entries of the schedule from the second
    on.  So a schedule that starts with 0 is followed exactly.  Missing: the
    first entry of a schedule that does not start with 0 (refuted below). *)
Theorem C25_schedule_partial :
  forall n dx dy lik normals data nugget constrain prior_std (X : mat n dx) (Y : option (mat n dy)) k
         t l tmax mi (s : tsampler) f,
  construct (Some (t :: l)) None tmax mi = Some s -> temperature_function s = Some f ->
  (0 < dx)%nat -> l <> [] -> 0 < last l 0 ->
  (forall j, (S j < length l)%nat -> nth j l 0 < last l 0) ->
  map (@temperature n dx dy)
    (teki_run lik normals data nugget (fun _ it _ => f it) constrain 0 prior_std (q_max_temp s) (q_max_iter s)
       (startup lik X Y k))
  = 0 :: l.
Proof.
  intros n dx dy lik normals data nugget con ps X Y k t l tmax mi s f Hs Hf Hd Hl Hpos Hinc.
  unfold construct in Hs. cbn in Hs. assert (s = TSampler (S (length l)) (last l t) (Some (t :: l)) NSchedule) by congruence.
  subst s. clear Hs. cbn in Hf. assert (Ef : f = schedule_at (t :: l)) by congruence. subst f. clear Hf. cbn [q_max_temp q_max_iter].
  assert (Last : last l t = last l 0).
  { clear -Hl. destruct (exists_last Hl) as (l' & x & ->). rewrite !last_last. reflexivity. }
  rewrite Last.
  assert (T0 : temperature (fst (startup lik X Y k)) = 0) by (destruct Y; reflexivity).
  assert (I0 : t_iter (snd (startup lik X Y k)) = 0%nat) by (destruct Y; reflexivity).
  destruct (run_temps n dx dy lik normals data nugget con ps Hd (last l 0) (S (length l)) _ T0 I0 (schedule_at (t :: l)))
    as (m & Hm & E & Hlt & Hst).
  rewrite E. clear E T0 I0.
  assert (V : forall j, (j < length l)%nat -> schedule_at (t :: l) (S j) = nth j l 0).
  { intros j Hj. unfold schedule_at. cbn [nth]. apply nth_indep. exact Hj. }
  assert (NL : nth (length l - 1) l 0 = last l 0).
  { clear -Hl. destruct (exists_last Hl) as (l' & x & ->). rewrite last_last, app_length. cbn.
    rewrite Nat.add_sub. rewrite app_nth2, Nat.sub_diag by lia. reflexivity. }
  assert (Lpos : (0 < length l)%nat) by (destruct l; [congruence|cbn; lia]).
  assert (m = length l).
  { destruct (Nat.lt_trichotomy m (length l)) as [C|[C|C]]; [|exact C|].
    - destruct Hst as [Hst|Hst]; [lia|]. destruct m as [|m]; [lra|]. rewrite V in Hst by lia.
      specialize (Hinc m C). lra.
    - assert (A : (length l < m)%nat) by lia. apply Hlt in A. destruct (length l) as [|k'] eqn:EL; [lia|].
      rewrite V in A by lia. replace k' with (S k' - 1)%nat in A by lia. lra. }
  subst m. cbn [seq map]. f_equal. rewrite <- seq_shift, map_map.
  apply nth_ext with (d := 0) (d' := 0); [rewrite map_length, seq_length; reflexivity|].
  intros j Hj. rewrite map_length, seq_length in Hj.
  rewrite (nth_indep _ 0 ((fun x => schedule_at (t :: l) (S x)) 0%nat)) by (rewrite map_length, seq_length; exact Hj).
  rewrite (map_nth (fun x => schedule_at (t :: l) (S x))), seq_nth by exact Hj. apply V. exact Hj.
Qed.
Print Assumptions C25_schedule_partial.

Example C25_schedule_example :
  let l := [1 / 4; 1] in
  l <> [] /\ 0 < last l 0 /\ (forall j, (S j < length l)%nat -> nth j l 0 < last l 0)
  /\ exists s f, construct (Some (0 :: l)) None 1 10000 = Some s /\ temperature_function s = Some f
     /\ f 1%nat = 1 / 4 /\ f 2%nat = 1 /\ f 7%nat = 1.
Proof.
  cbn. split; [discriminate|]. split; [lra|]. split.
  - intros [|j] Hj; [lra|lia].
  - eexists. eexists. split; [reflexivity|]. split; [reflexivity|]. cbv. lra.
Qed.

(** The schedule [1/2, 1]: every run goes straight to temperature 1. *)
Theorem C25_schedule_refuted :
  exists t l, 0 < t /\ (forall x, In x l -> t < x)
  /\ forall n dx dy lik normals data nugget constrain prior_std (X : mat n dx) (Y : option (mat n dy)) k tmax mi,
     (0 < dx)%nat ->
     exists s f, construct (Some (t :: l)) None tmax mi = Some s /\ temperature_function s = Some f
     /\ ~ In t (map (@temperature n dx dy)
           (teki_run lik normals data nugget (fun _ it _ => f it) constrain 0 prior_std (q_max_temp s) (q_max_iter s)
              (startup lik X Y k))).
Proof.
  exists (1 / 2), [1]. split; [lra|]. split; [intros x [<-|[]]; lra|].
  intros n dx dy lik normals data nugget con ps X Y k tmax mi Hd.
  eexists. eexists. split; [reflexivity|]. split; [reflexivity|].
  erewrite C25_schedule_partial with (t := 1 / 2) (l := [1]) (tmax := tmax) (mi := mi); try reflexivity; try exact Hd.
  - intros [C|[C|[]]]; lra.
  - discriminate.
  - cbn. lra.
  - cbn. intros j Hj. lia.
Qed.
Print Assumptions C25_schedule_refuted.

(** The increments used by the updates of any run, [1 / alph], add up to the
    temperature reached. *)
Theorem C25_increments :
  forall n dx dy lik normals data nugget next (init : tstate n dx dy * textra) m,
  let T j := temperature (fst (iterate (update lik normals data nugget next) j init)) in
  fold_right Rplus 0 (map (fun j => / alph_of (T j) (T (S j))) (seq 0 m)) = T m - T 0%nat.
Proof.
  intros n dx dy lik normals data nugget next init m T.
  assert (A : forall a b, / alph_of a b = b - a).
  { intros a b. unfold alph_of, Rdiv. rewrite Rmult_1_l. apply Rinv_inv. }
  induction m as [|m IH]; [cbn; lra|].
  rewrite seq_S, map_app, fold_right_app. cbn [map fold_right Nat.add]. rewrite Rplus_0_r.
  assert (F : forall l c, fold_right Rplus c l = fold_right Rplus 0 l + c).
  { induction l as [|x l IHl]; intros c; cbn; [lra|]. rewrite IHl. lra. }
  rewrite F, IH, A. lra.
Qed.
Print Assumptions C25_increments.

(** Temperatures 0, 1/4, 1: the increments are 1/4 and 3/4. *)
Example C25_increments_example : / alph_of 0 (1 / 4) = 1 / 4 /\ / alph_of (1 / 4) 1 = 3 / 4.
Proof. unfold alph_of. split; field. Qed.

(** Assigning [None] to remove a schedule leaves a temperature function that
    indexes [None]. *)
Theorem C25_clear_refuted :
  forall (s : tsampler) t l, exists s1 s2,
  set_schedule (Some (t :: l)) s = Some s1 /\ set_schedule None s1 = Some s2 /\ temperature_function s2 = None.
Proof. intros. eexists. eexists. repeat split. Qed.
Print Assumptions C25_clear_refuted.

(** * C81 *)
(** With neither a schedule nor a function the temperatures increase at each
    iteration, by less than 1, and the run ends after 50 iterations exactly at
    the default maximum 1. *)
Theorem C81_default :
  forall n dx dy lik normals data nugget constrain prior_std (X : mat n dx) (Y : option (mat n dy)) k mi s f,
  construct None None 1 mi = Some s -> temperature_function s = Some f ->
  (0 < dx)%nat -> (50 <= mi)%nat ->
  let T := map (@temperature n dx dy)
    (teki_run lik normals data nugget (fun _ it _ => f it) constrain 0 prior_std (q_max_temp s) (q_max_iter s)
       (startup lik X Y k)) in
  length T = 51%nat /\ nth 0 T 0 = 0 /\ nth 50 T 0 = 1
  /\ (forall j, (j < 50)%nat -> nth j T 0 < nth (S j) T 0 <= nth j T 0 + 1).
Proof.
  intros n dx dy lik normals data nugget con ps X Y k mi s f Hs Hf Hd Hmi.
  cbn in Hs. assert (s = TSampler mi 1 None NUnset) by congruence. subst s. clear Hs.
  cbn in Hf. assert (f = default_temperature) by congruence. subst f. clear Hf. cbn [q_max_temp q_max_iter].
  assert (T0 : temperature (fst (startup lik X Y k)) = 0) by (destruct Y; reflexivity).
  assert (I0 : t_iter (snd (startup lik X Y k)) = 0%nat) by (destruct Y; reflexivity).
  destruct (run_temps n dx dy lik normals data nugget con ps Hd 1 mi _ T0 I0 default_temperature)
    as (m & Hm & E & Hlt & Hst).
  cbv zeta. rewrite E. clear E T0 I0.
  assert (M : m = 50%nat).
  { destruct (Nat.lt_trichotomy m 50) as [C|[C|C]]; [|exact C|].
    - destruct Hst as [Hst|Hst]; [lia|]. destruct m as [|m]; [lra|].
      pose proof (default_lt (S m) 50 C) as D. rewrite default_50 in D. lra.
    - specialize (Hlt 50%nat C). cbv beta iota in Hlt. rewrite default_50 in Hlt. lra. }
  subst m.
  assert (G : forall j, (j < 51)%nat -> nth j (map (fun j : nat => match j with O => 0 | S _ => default_temperature j end) (seq 0 51)) 0 = default_temperature j).
  { intros j Hj. set (g := fun j : nat => _). rewrite (nth_indep _ 0 (g 0%nat)) by (rewrite map_length, seq_length; exact Hj).
    rewrite (map_nth g), seq_nth by exact Hj. unfold g. destruct j; [symmetry; apply default_0|reflexivity]. }
  split; [rewrite map_length, seq_length; reflexivity|].
  rewrite !G by lia. rewrite default_0, default_50. split; [reflexivity|]. split; [reflexivity|].
  intros j Hj. rewrite !G by lia. split; [apply default_lt; lia|].
  assert (A : default_temperature 0 <= default_temperature j) by (destruct j; [lra|apply Rlt_le, default_lt; lia]).
  assert (B : default_temperature (S j) <= default_temperature 50).
  { destruct (Nat.eq_dec (S j) 50) as [->|C]; [lra|apply Rlt_le, default_lt; lia]. }
  rewrite default_0 in A. rewrite default_50 in B. lra.
Qed.
Print Assumptions C81_default.

Example C81_default_example : default_temperature 0 = 0 /\ 99 / 10000 <= default_temperature 1 < default_temperature 50.
Proof.
  split; [apply default_0|]. split; [|apply default_lt; lia].
  pose proof (default_step 0). rewrite default_0 in H. lra.
Qed.

(** With another maximum the default temperatures pass beyond it: with maximum
    1/3 every run ends above 1/3. *)
Theorem C81_default_overshoot_refuted :
  exists tmax, forall n dx dy lik normals data nugget constrain prior_std (X : mat n dx) (Y : option (mat n dy)) k mi,
  (0 < dx)%nat -> (51 <= mi)%nat ->
  exists s f, construct None None tmax mi = Some s /\ temperature_function s = Some f
  /\ tmax < last (map (@temperature n dx dy)
       (teki_run lik normals data nugget (fun _ it _ => f it) constrain 0 prior_std (q_max_temp s) (q_max_iter s)
         (startup lik X Y k))) 0.
Proof.
  exists (1 / 3). intros n dx dy lik normals data nugget con ps X Y k mi Hd Hmi.
  eexists. eexists. split; [reflexivity|]. split; [reflexivity|]. cbn [q_max_temp q_max_iter].
  assert (T0 : temperature (fst (startup lik X Y k)) = 0) by (destruct Y; reflexivity).
  assert (I0 : t_iter (snd (startup lik X Y k)) = 0%nat) by (destruct Y; reflexivity).
  destruct (run_temps n dx dy lik normals data nugget con ps Hd (1 / 3) mi _ T0 I0 default_temperature)
    as (m & Hm & E & Hlt & Hst).
  rewrite E. clear E T0 I0. rewrite seq_S, map_app. cbn [map Nat.add]. rewrite last_last.
  destruct Hst as [Hst|Hst].
  - subst m. assert (A : (50 < mi)%nat) by lia. specialize (Hlt 50%nat A). cbv beta iota in Hlt. rewrite default_50 in Hlt. lra.
  - destruct m as [|m]; [lra|]. destruct Hst as [Hst|Hst]; [exact Hst|]. symmetry in Hst. apply default_third in Hst. contradiction.
Qed.
Print Assumptions C81_default_overshoot_refuted.

(** Adaptive temperatures never decrease and never pass the maximum. *)
Theorem C81_adaptive_between_partial :
  forall n dx dy lik normals data nugget thr tol mb tmax (init : tstate n dx dy * textra) j,
  0 < tol -> temperature (fst init) <= tmax ->
  let it j := fst (iterate (update lik normals data nugget (next_temperature_adaptive data thr tol mb tmax)) j init) in
  temperature (it j) <= temperature (it (S j)) <= tmax.
Proof.
  intros n dx dy lik normals data nugget thr tol mb tmax init j Ht H0 it.
  assert (S1 : forall i, temperature (it i) <= tmax -> temperature (it i) <= temperature (it (S i)) <= tmax).
  { intros i Hi. apply (bisect_between _ tol mb _ tmax Ht Hi). }
  assert (A : forall i, temperature (it i) <= tmax).
  { induction i as [|i IH]; [exact H0|]. apply S1. exact IH. }
  apply S1, A.
Qed.
Print Assumptions C81_adaptive_between_partial.

(** When an adaptive step makes progress: the pseudo-likelihoods [v] of the
    particles differ enough for the effective sample size at the maximum to be
    below [n], the root finder did not run out of iterations, and the tolerance
    is at most -log threshold.  Then the temperature rises, and either it is
    the maximum and keeps more than the threshold, or the effective sample size
    of the increment is the threshold times [n] up to a factor exp(+-tol). *)
Theorem C81_adaptive_progress_partial :
  forall n dx dy data thr tol mb tmax (s : tstate n dx dy) it prec,
  let ess d := kish (map (fun v => exp (- d * v)) (pseudo_potentials data (simulated s) prec)) in
  (0 < n)%nat -> 0 < tol -> 0 < thr -> tol <= - ln thr -> temperature s < tmax ->
  ess (tmax - temperature s) < INR n ->
  (biter (bisect (ess_objective data thr s prec) mb tol (temperature s) tmax) < mb)%nat ->
  let t' := next_temperature_adaptive data thr tol mb tmax s it prec in
  temperature s < t'
  /\ ((t' = tmax /\ thr * INR n < ess (t' - temperature s))
      \/ exp (- tol) < ess (t' - temperature s) / (thr * INR n) < exp tol).
Proof.
  intros n dx dy data thr tol mb tmax s it prec ess Hn Ht Hth Htl Hlt Hess Hb.
  set (l := pseudo_potentials data (simulated s) prec) in *.
  assert (L : length l = n).
  { unfold l, pseudo_potentials. rewrite map_length. exact (fintype.size_enum_ord n). }
  assert (Nn : 0 < INR n) by (apply lt_0_INR; exact Hn).
  assert (Kpos : forall d, 0 < ess d).
  { intros d. unfold ess. fold l. set (w := map _ l).
    assert (Wl : w <> []) by (intros C; apply map_eq_nil in C; rewrite C in L; cbn in L; lia).
    assert (A : forall x, In x w -> 0 < x).
    { intros x Hx. apply in_map_iff in Hx. destruct Hx as (a & <- & _). apply exp_pos. }
    assert (S1 : forall l, l <> [] -> (forall x, In x l -> 0 < x) -> 0 < Rsum l).
    { clear. induction l as [|x l IH]; intros N H; [congruence|]. cbn [Rsum].
      specialize (H x (or_introl eq_refl)) as Hx. destruct l as [|y l]; [cbn; lra|].
      assert (0 < Rsum (y :: l)) by (apply IH; [discriminate|intros z Hz; apply H; right; exact Hz]). lra. }
    unfold kish, Rdiv. apply Rmult_lt_0_compat.
    - apply pow_lt, S1; assumption.
    - apply Rinv_0_lt_compat, S1.
      + intros C. apply map_eq_nil in C. contradiction.
      + intros x Hx. apply in_map_iff in Hx. destruct Hx as (y & <- & Hy). apply pow_lt, A, Hy. }
  assert (O : forall x, ess_objective data thr s prec x = ln (ess (x - temperature s)) - ln (INR n * thr)).
  { intros x. apply ess_objective_kish. exact Hn. }
  assert (Z : ess 0 = INR n).
  { unfold ess. fold l. replace (map (fun v => exp (- 0 * v)) l) with (repeat 1 n).
    - clear -Hn. unfold kish. assert (A : forall m, Rsum (repeat 1 m) = INR m).
      { induction m; [reflexivity|]. rewrite S_INR. cbn [repeat Rsum]. lra. }
      assert (B : forall m, map (fun x => x ^ 2) (repeat 1 m) = repeat 1 m).
      { induction m; [reflexivity|]. cbn [repeat map]. rewrite IHm. f_equal. lra. }
      rewrite B, A. field. apply not_0_INR. lia.
    - rewrite <- L. clear. induction l as [|x l IH]; [reflexivity|]. cbn [length repeat map]. rewrite IH. f_equal.
      rewrite <- exp_0. f_equal. lra. }
  assert (F0 : ess_objective data thr s prec (temperature s) = - ln thr).
  { rewrite O. replace (temperature s - temperature s) with 0 by lra. rewrite Z, ln_mult by assumption. lra. }
  assert (F1 : ess_objective data thr s prec tmax < ess_objective data thr s prec (temperature s)).
  { rewrite !O. replace (temperature s - temperature s) with 0 by lra. rewrite Z.
    apply Rplus_lt_compat_r, ln_increasing; [apply Kpos|exact Hess]. }
  pose proof (bisect_progress (ess_objective data thr s prec) tol mb (temperature s) tmax Ht Hlt
                (eq_ind_r (fun z => tol <= z) Htl F0) F1 Hb) as P.
  cbv zeta in P. fold (next_temperature_adaptive data thr tol mb tmax s it prec) in P.
  cbv zeta. set (t' := next_temperature_adaptive data thr tol mb tmax s it prec) in *.
  destruct P as [P1 P2]. split; [exact P1|].
  assert (RE : 0 < thr * INR n) by (apply Rmult_lt_0_compat; assumption).
  destruct P2 as [[P2 P3]|P2].
  - left. split; [exact P2|]. rewrite O in P3. rewrite P2.
    apply ln_lt_inv; [exact RE|apply Kpos|]. rewrite (Rmult_comm thr). lra.
  - right. rewrite O in P2. rewrite (Rmult_comm (INR n)) in P2.
    assert (Q : ln (ess (t' - temperature s) / (thr * INR n)) = ln (ess (t' - temperature s)) - ln (thr * INR n)).
    { unfold Rdiv. rewrite ln_mult, ln_Rinv by (auto; apply Rinv_0_lt_compat; auto). lra. }
    rewrite <- Q in P2. apply Rabs_def2 in P2.
    assert (D : 0 < ess (t' - temperature s) / (thr * INR n)) by (apply Rdiv_lt_0_compat; auto).
    rewrite <- (exp_ln _ D). split; apply exp_increasing; lra.
Qed.
Print Assumptions C81_adaptive_progress_partial.

Definition two (a b : R) : tstate 2 1 1 := TState (col2 0 1) (col2 a b) 0.

(** Two particles with pseudo-likelihood potentials 0 and ln 2, threshold 1/2:
    one step reaches the maximum. *)
Example C81_adaptive_example :
  let s := two 0 (sqrt (2 * ln 2)) in
  let data := ssralg.GRing.zero (matrix.matrix_zmodType R_zmodType 1 1) in
  let prec := matrix.scalar_mx 1 in
  kish (map (fun v => exp (- (1 - temperature s) * v)) (pseudo_potentials data (simulated s) prec)) < INR 2
  /\ / 10 <= - ln (1 / 2)
  /\ (biter (bisect (ess_objective data (1 / 2) s prec) 10 (/ 10) (temperature s) 1) < 10)%nat
  /\ next_temperature_adaptive data (1 / 2) (/ 10) 10 1 s 1 prec = 1.
Proof.
  cbv zeta. set (s := two _ _). set (data := ssralg.GRing.zero _). set (prec := matrix.scalar_mx 1).
  pose proof ln2_half as L2.
  assert (P : pseudo_potentials data (simulated s) prec = [0; ln 2]).
  { unfold s, two, data, prec. cbn [simulated].
    transitivity [1 / 2 * (0 * 0); 1 / 2 * (sqrt (2 * ln 2) * sqrt (2 * ln 2))]; [apply (potentials2 0 (sqrt (2 * ln 2)))|].
    rewrite sqrt_sqrt by lra. repeat (f_equal; try lra). }
  assert (K : forall d, kish (map (fun v => exp (- d * v)) [0; ln 2])
                        = (1 + exp (- d * ln 2)) ^ 2 / (1 + exp (- d * ln 2) ^ 2)).
  { intros d. unfold kish. cbn [map Rsum]. rewrite !Rmult_0_r, exp_0. f_equal; ring. }
  assert (H1 : exp (- (1 - 0) * ln 2) = / 2).
  { replace (- (1 - 0) * ln 2) with (- ln 2) by lra. rewrite exp_Ropp, exp_ln; lra. }
  assert (O : forall x, ess_objective data (1 / 2) s prec x
     = ln ((1 + exp (- (x - 0) * ln 2)) ^ 2 / (1 + exp (- (x - 0) * ln 2) ^ 2)) - ln (INR 2 * (1 / 2))).
  { intros x. rewrite ess_objective_kish by lia. rewrite P, K. reflexivity. }
  assert (N2 : INR 2 * (1 / 2) = 1) by (cbn; lra).
  assert (O0 : ess_objective data (1 / 2) s prec 0 = ln 2).
  { rewrite O, N2, ln_1. replace (- (0 - 0) * ln 2) with 0 by lra. rewrite exp_0, Rminus_0_r. f_equal. field. }
  assert (O1 : ess_objective data (1 / 2) s prec 1 = ln (9 / 5)).
  { rewrite O, N2, ln_1, H1, Rminus_0_r. f_equal. field. }
  assert (L95 : 0 < ln (9 / 5) < ln 2).
  { split; [rewrite <- ln_1|]; apply ln_increasing; lra. }
  assert (B : bisect (ess_objective data (1 / 2) s prec) 10 (/ 10) 0 1 = BState 0 1 (ln 2) (ln (9 / 5)) 0).
  { unfold bisect, bisect_init. rewrite O0, O1. cbn [while_loop]. unfold conv_check. cbn [e0 e1 biter].
    replace (Rltb 0 (ln 2)) with true by (symmetry; apply Rltb_true; lra).
    replace (Rltb 0 (ln (9 / 5))) with true by (symmetry; apply Rltb_true; lra).
    rewrite orb_true_r. reflexivity. }
  change (temperature s) with 0. split; [|split; [|split]].
  - rewrite P, K, H1. cbn. lra.
  - replace (1 / 2) with (/ 2) by lra. rewrite ln_Rinv by lra. lra.
  - rewrite B. cbn. lia.
  - unfold next_temperature_adaptive. change (temperature s) with 0. rewrite B. cbn [e0 e1 b0 b1].
    replace (Rleb (Rabs (ln 2)) (Rabs (ln (9 / 5)))) with false; [reflexivity|].
    symmetry. apply Rleb_false. rewrite !Rabs_right by lra. lra.
Qed.

(** When the particles' simulated data are equally far from the data the
    objective does not change with the temperature and the current temperature
    is returned: no progress, and [alph] is 1/0.  Two particles at 1 and -1
    around the data 0, any threshold in (0, 1), tolerance and limits. *)
Theorem C81_adaptive_stuck_refuted :
  exists (s : tstate 2 1 1) data prec, temperature s = 0
  /\ forall thr tol mb tmax it, 0 < thr < 1 -> 0 < tmax ->
     next_temperature_adaptive data thr tol mb tmax s it prec = 0.
Proof.
  set (s := two 1 (-1)). set (data := ssralg.GRing.zero (matrix.matrix_zmodType R_zmodType 1 1)).
  set (prec := @matrix.scalar_mx R_ringType 1 1).
  exists s, data, prec. split; [reflexivity|]. intros thr tol mb tmax it Hth Hm.
  assert (P : pseudo_potentials data (simulated s) prec = [1 / 2; 1 / 2]).
  { transitivity [1 / 2 * (1 * 1); 1 / 2 * ((-1) * (-1))]; [apply (potentials2 1 (-1))|]. repeat (f_equal; try lra). }
  assert (O : forall x, ess_objective data thr s prec x = - ln thr).
  { intros x. rewrite ess_objective_kish by lia. rewrite P. unfold kish. cbn [map Rsum].
    set (z := exp _). assert (Z : 0 < z) by apply exp_pos.
    replace ((z + (z + 0)) ^ 2 / (z ^ 2 + (z ^ 2 + 0))) with 2 by (field; nra).
    replace (INR 2) with 2 by (cbn; lra). rewrite ln_mult by lra. lra. }
  assert (Lt : ln thr < 0) by (rewrite <- ln_1; apply ln_increasing; lra).
  assert (B : bisect (ess_objective data thr s prec) mb tol 0 tmax = BState 0 tmax (- ln thr) (- ln thr) 0).
  { unfold bisect, bisect_init. rewrite !O. destruct mb as [|mb]; [reflexivity|]. cbn [while_loop].
    unfold conv_check. cbn [e0 e1 biter].
    replace (Rltb 0 (- ln thr)) with true by (symmetry; apply Rltb_true; lra).
    rewrite !orb_true_r. reflexivity. }
  unfold next_temperature_adaptive. change (temperature s) with 0. rewrite B. cbn [e0 e1 b0 b1].
  replace (Rleb (Rabs (- ln thr)) (Rabs (- ln thr))) with true; [reflexivity|].
  symmetry. apply Rleb_true. lra.
Qed.
Print Assumptions C81_adaptive_stuck_refuted.

(** * C32 *)
(** The keys read by the startup and by the updates. *)
Definition teki_draws (n : nat) (k : key) : list key := map (KSplit k (n + 2)) (seq 0 (S n)).
Definition teki_next_key (n : nat) (k : key) : key := KSplit k (n + 2) (S n).

Lemma pairwise_split k m a len : pairwise incomparable (map (KSplit k m) (seq a len)).
Proof.
  revert a. induction len as [|len IH]; intros a; cbn [seq map]; constructor; [|apply IH].
  apply Forall_forall. intros x Hx. apply in_map_iff in Hx. destruct Hx as (i & <- & Hi). apply in_seq in Hi.
  eapply (split_incomparable k m a i); [lia|constructor|constructor].
Qed.

Lemma teki_draws_ok n m k : pairwise incomparable (run_draws (teki_draws n) (teki_next_key n) m k)
  /\ List.Forall (derived k) (run_draws (teki_draws n) (teki_next_key n) m k).
Proof.
  apply run_draws_antichain; clear.
  - intros k. apply pairwise_split.
  - intros k x Hx. apply in_map_iff in Hx. destruct Hx as (i & <- & _). kder.
  - intros k x Hx. apply in_map_iff in Hx. destruct Hx as (i & <- & Hi). apply in_seq in Hi.
    eapply (split_incomparable k (n + 2) i (S n)); [lia|constructor|constructor].
  - intros k. kder.
Qed.

(** There is a list of keys, none of them derived from another one, such that a
    run of [m] updates with the startup before it reads randomness only there:
    changing the samples elsewhere changes nothing. *)
Theorem C32_teki_keys :
  forall (n m : nat) (k : key), (0 < n)%nat -> exists draws : list key,
  length draws = (n + m * S n)%nat /\ antichain draws
  /\ forall dx dy lik lik' normals normals' data nugget next (X : mat n dx),
     (forall k', In k' draws -> normals k' = normals' k' /\ forall v, lik v k' = lik' v k') ->
     iterate (@update n dx dy lik normals data nugget next) m (startup lik X None k)
     = iterate (update lik' normals' data nugget next) m (startup lik' X None k).
Proof.
  intros n m k Hn.
  set (k1 := KSplit k (2 * n) (2 * n - 1)).
  exists (map (KSplit k (2 * n)) (seq 0 n) ++ run_draws (teki_draws n) (teki_next_key n) m k1).
  split; [|split].
  - rewrite app_length, map_length, seq_length. f_equal.
    clearbody k1. clear Hn. revert k1. induction m as [|m IH]; intros k1; [reflexivity|].
    change (run_draws (teki_draws n) (teki_next_key n) (S m) k1)
      with (teki_draws n k1 ++ run_draws (teki_draws n) (teki_next_key n) m (teki_next_key n k1)).
    rewrite app_length, IH. unfold teki_draws. rewrite map_length, seq_length. lia.
  - apply pairwise_antichain. destruct (teki_draws_ok n m k1) as [A B]. rewrite Forall_forall in B.
    apply pairwise_app; [apply pairwise_split|exact A|].
    intros x y Hx Hy. apply in_map_iff in Hx. destruct Hx as (i & <- & Hi). apply in_seq in Hi.
    eapply (split_incomparable k (2 * n) i (2 * n - 1)); [lia|constructor|apply B, Hy].
  - intros dx dy lik lik' normals normals' data nugget next X A.
    assert (S0 : startup lik X None k = startup lik' X None k).
    { unfold startup. f_equal. f_equal. apply simulate_ext. intros i v Hi. apply A. apply in_or_app. left.
      apply in_map_iff. exists i. split; [reflexivity|]. apply in_seq. lia. }
    rewrite S0.
    assert (K1 : t_key (snd (startup lik' X None k)) = k1).
    { unfold k1. cbn [startup snd t_key]. change (ssrnat.muln 2 n) with (2 * n)%nat. f_equal. change (ssrnat.predn (2*n)) with (pred (2 * n)). lia. }
    generalize dependent (startup lik' X None k). intros c _ K1.
    assert (A' : forall k', In k' (run_draws (teki_draws n) (teki_next_key n) m k1) ->
        normals k' = normals' k' /\ forall v, lik v k' = lik' v k').
    { intros k' Hk. apply A. apply in_or_app. right. exact Hk. }
    clear A. clearbody k1. revert k1 c K1 A'. induction m as [|m IH]; intros k1 c K1 A; [reflexivity|].
    rewrite !iterate_succ_l.
    assert (U : update lik normals data nugget next (fst c) (snd c) = update lik' normals' data nugget next (fst c) (snd c)).
    { unfold update. cbv zeta. rewrite K1.
      destruct (A (KSplit k1 (n + 2) n)) as [An _].
      { apply in_or_app. left. apply in_map_iff. exists n. split; [reflexivity|]. apply in_seq. lia. }
      change (ssrnat.addn n 2) with (n + 2)%nat.
      rewrite An. f_equal. f_equal. apply simulate_ext. intros i v Hi. apply A. apply in_or_app. left.
      apply in_map_iff. exists i. split; [reflexivity|]. apply in_seq. lia. }
    rewrite U. apply (IH (teki_next_key n k1)).
    + cbn [update snd t_key]. rewrite K1. reflexivity.
    + intros k' Hk. apply A. apply in_or_app. right. exact Hk.
Qed.
Print Assumptions C32_teki_keys.

Example C32_teki_keys_example :
  map (KSplit (KRoot 0) 4) (seq 0 2) ++ run_draws (teki_draws 2) (teki_next_key 2) 1 (KSplit (KRoot 0) 4 3)
  = [KSplit (KRoot 0) 4 0; KSplit (KRoot 0) 4 1; KSplit (KSplit (KRoot 0) 4 3) 4 0;
     KSplit (KSplit (KRoot 0) 4 3) 4 1; KSplit (KSplit (KRoot 0) 4 3) 4 2].
Proof. reflexivity. Qed.
