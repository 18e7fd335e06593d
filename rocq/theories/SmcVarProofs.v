(** Proofs that the squared error of the estimates of an SMC run is at most a
    constant over the number of particles. *)
From Coq Require Import Reals List Bool Arith Lia Lra.
From Verif Require Import XR Keys McmcModel WeightsModel WeightsSpec WeightsProofs SmcModel SmcSpec SmcProofs SmcNorm SmcProps UnbSpec UnbProofs
  KexpSpec KexpProofs RejLawProofs ChainModel ChainSpec ChainProofs SmcLawModel SmcLawSpec SmcMoveProofs PfProofs PfVarProofs.
Import ListNotations.
Open Scope R_scope.
Notation dot ws xs := (Rsum (map (fun wx => fst wx * snd wx) (combine ws xs))).

Lemma dot_const_scal c : forall us xs, dot us (map (fun x : R => c * x) xs) = c * dot us xs.
Proof. induction us as [|u us IH]; intros [|x xs]; cbn; try ring. rewrite IH. ring. Qed.
Lemma dot_map_scal {A} c (f : A -> R) : forall us xs, dot us (map (fun x => c * f x) xs) = c * dot us (map f xs).
Proof. induction us as [|u us IH]; intros [|x xs]; cbn; try ring. rewrite IH. ring. Qed.
Lemma dot_abs us xs B : (forall u, In u us -> 0 <= u) -> (forall x, In x xs -> Rabs x <= B) -> length us = length xs -> Rabs (dot us xs) <= Rsum us * B.
Proof.
  revert xs. induction us as [|u us IH]; intros [|x xs] Hu Hx L; cbn in *; try discriminate; [rewrite Rabs_R0; lra|].
  eapply Rle_trans; [apply Rabs_triang|]. rewrite Rabs_mult, (Rabs_right u) by (apply Rle_ge, Hu; left; reflexivity).
  pose proof (IH xs ltac:(intros; apply Hu; right; assumption) ltac:(intros; apply Hx; right; assumption) ltac:(lia)).
  pose proof (Rmult_le_compat_l u _ _ (Hu u (or_introl eq_refl)) (Hx x (or_introl eq_refl))). lra.
Qed.

Section V.
  Variable fp fl : vec -> R.
  Variable supp : list vec.
  Variable K : R -> vec -> vec -> R.
  Variable gprior glik : vec -> key -> vec.
  Variable l : list R.
  Variable thr : R.
  Variable n J0 : nat.
  Variable m : R.
  Hypothesis supp_ne : supp <> [].
  Hypothesis rows : rows_ok supp K.
  Hypothesis inv : invariant_ok fp fl supp K.
  Notation prior := (prior fp).
  Notation lik := (lik fl).
  Notation T := (fun j => nth j l (last l 0)).
  Notation next := (scheduled l).
  Hypothesis Tpos : forall j, 0 < T j.
  Hypothesis Tinc : forall j, T j <= T (S j).
  Hypothesis Hm : forall x, In x supp -> - m <= fl x.
  Hypothesis Kpos : forall j x y, (j < J0)%nat -> In x supp -> In y supp -> 0 <= K (T j) x y.
  Hypothesis Hn : (0 < n)%nat.
  Hypothesis Hthr : 0 < thr.
  Notation fine := (fine fp fl supp l).
  Notation Q := (Q fl supp K l).
  Notation Qs := (Qs fl supp K l).
  Notation g := (g fl l).
  Notation theta := (theta thr).

  Lemma np : 0 < INR n. Proof. apply lt_0_INR, Hn. Qed.
  Lemma tp : 0 < theta. Proof. apply theta_pos, Hthr. Qed.

  Definition sound (j : nat) (c : ensemble * sextra) : Prop :=
    fine j c /\ length (fst c) = n /\ p_ess (first (fst c)) = ess_log_weight (map p_lw (fst c)) /\ norm_constant c <= exp (m * T j).

  Lemma g_bound j y : In y supp -> g j y <= exp (m * (T (S j) - T j)).
  Proof.
    intros Hy. unfold UnbProofs.g. specialize (Hm y Hy). specialize (Tinc j).
    assert (- (T (S j) - T j) * fl y <= m * (T (S j) - T j)) by nra.
    destruct (Req_dec (- (T (S j) - T j) * fl y) (m * (T (S j) - T j))) as [->|N]; [lra|]. apply Rlt_le, exp_increasing. lra.
  Qed.
  Lemma kernel_ok j x : (j < J0)%nat -> In x supp -> prob (kernel_law supp K (T j) x) /\ nonneg (kernel_law supp K (T j) x).
  Proof.
    intros Hj Hx. split; [apply kernel_prob; auto|]. intros ap H. apply in_map_iff in H. destruct H as (y & <- & Hy). apply Kpos; assumption.
  Qed.
  Lemma kernel_supp j x y : In y (map fst (kernel_law supp K (T j) x)) -> In y supp.
  Proof. unfold kernel_law. rewrite map_map. cbn. rewrite map_id. auto. Qed.

  Lemma Q_bound j psi B x : (j < J0)%nat -> In x supp -> (forall y, In y supp -> Rabs (psi y) <= B) -> Rabs (Q j psi x) <= exp (m * (T (S j) - T j)) * B.
  Proof.
    intros Hj Hx HB. destruct (kernel_ok j x Hj Hx) as [P N]. unfold UnbProofs.Q. apply (mean_bound _ _ _ P N).
    intros y Hy. apply kernel_supp in Hy. rewrite Rabs_mult, (Rabs_right (g j y)) by (apply Rle_ge, Rlt_le, exp_pos).
    apply Rmult_le_compat; [apply Rlt_le, exp_pos|apply Rabs_pos|apply g_bound, Hy|apply HB, Hy].
  Qed.
  Lemma Qs_bound phi B J : forall j x, (j + J <= J0)%nat -> In x supp -> (forall y, In y supp -> Rabs (phi y) <= B) ->
    Rabs (Qs j J phi x) <= exp (m * (T (j + J)%nat - T j)) * B.
  Proof.
    induction J as [|J IH]; intros j x Hj Hx HB; cbn [UnbProofs.Qs].
    - rewrite Nat.add_0_r. replace (m * (T j - T j)) with 0 by ring. rewrite exp_0, Rmult_1_l. apply HB, Hx.
    - eapply Rle_trans.
      + apply (Q_bound j _ (exp (m * (T (S j + J)%nat - T (S j))) * B)); [lia|exact Hx|]. intros y Hy. apply IH; [lia|exact Hy|exact HB].
      + right. rewrite <- Rmult_assoc, <- exp_plus. f_equal. f_equal. replace (S j + J)%nat with (j + S J)%nat by lia. ring.
  Qed.

  (** the recorded effective sample size is that of the recorded weights *)
  Lemma update_ess cat inner E e : categorical_ok cat -> E <> [] ->
    let c := smc_update prior cat inner next thr E e in
    p_ess (first (fst c)) = ess_log_weight (map p_lw (fst c)).
  Proof.
    intros Ok Ne c. unfold c. rewrite new_lw by exact Ok. rewrite first_nth. unfold smc_update. cbn [fst].
    rewrite nth_adapt; [reflexivity| |]; rewrite ?moved_length, ?resampled_length by auto; [reflexivity|].
    destruct E; [congruence|cbn; lia].
  Qed.
  Lemma startup_ess vs k st : vs <> [] ->
    let c := smc_startup prior lik gprior glik next vs k st in
    p_ess (first (fst c)) = ess_log_weight (map p_lw (fst c)).
  Proof.
    intros Ne c. unfold c. rewrite first_nth, nth_startup by (destruct vs; [congruence|cbn; lia]). cbv zeta. cbn [p_ess]. unfold ess_log_weight. f_equal. f_equal.
    unfold smc_startup. cbv zeta. cbn [fst]. rewrite map_map. cbn [p_lw]. generalize (smc_prestart prior lik gprior glik vs k). intros E0.
    generalize (- next E0 0%nat). clear. intros t. induction E0 as [|p E0 IH]; cbn; [reflexivity|]. f_equal. exact IH.
  Qed.

  Lemma used_square E e j : sound j (E, e) ->
    Rsum (map (fun u => u ^ 2) (weights_used thr E)) / Rsum (weights_used thr E) ^ 2 <= / (theta * INR n).
  Proof.
    intros (Fi & L & He & _). pose proof Fi as (Ne & _ & _ & Lw & _). cbn [fst snd] in *. destruct (used_pos thr E Ne Lw) as (UL & UP & US).
    pose proof np as Np. pose proof tp as Tp. pose proof (lwf_ok E Ne Lw) as O. unfold weights_used in *. rewrite He in *.
    rewrite (ess_kish _ O) in *.
    destruct (Rle_dec (kish (weights (map p_lw E))) (thr * INR (length E))) as [C|C].
    - rewrite map_repeat, pow1, !Rsum_ones, L. replace (INR n / INR n ^ 2) with (/ INR n) by (field; lra).
      apply Rinv_le_contravar; [apply Rmult_lt_0_compat; lra|]. pose proof (Rmin_l 1 thr). unfold PfVarProofs.theta. nra.
    - rewrite L in C. unfold kish in C. set (U := Rsum (weights (map p_lw E))) in *. set (S2 := Rsum (map (fun x => x ^ 2) (weights (map p_lw E)))) in *.
      assert (S2p : 0 < S2).
      { unfold S2. apply Rsum_pos; [intros X; rewrite X in UL; destruct E; [congruence|discriminate]|]. intros x Hx. apply pow_lt, UP, Hx. }
      assert (U2p : 0 < U ^ 2) by (apply pow_lt, US).
      replace (S2 / U ^ 2) with (/ (U ^ 2 / S2)) by (field; split; lra).
      apply Rinv_le_contravar; [apply Rmult_lt_0_compat; lra|].
      apply Rle_trans with (thr * INR n); [|lra]. apply Rmult_le_compat_r; [lra|]. unfold PfVarProofs.theta. apply Rmin_r.
  Qed.

  Lemma step_sound j E e idx ys : sound j (E, e) ->
    length idx = length E -> List.Forall (fun i => (i < length E)%nat) idx ->
    length ys = length E -> (forall y, In y ys -> In y supp) ->
    let c' := smc_update prior (indices idx) (moves fp fl ys) next thr E e in
    sound (S j) c'
    /\ forall phi, estimate phi c' = norm_constant (E, e) * weighted_mean (weights_used thr E) (map (fun y => g j y * phi y) ys).
  Proof.
    intros (Fi & L & He & Nb) Li Ii Ly Sy c'. cbn [fst] in L, He. destruct (step_given fp fl supp l thr Tpos j E e idx ys Fi Li Ii Ly Sy) as [F' E']. fold c' in F', E'.
    pose proof Fi as (Ne & _ & _ & Lw & _). cbn [fst snd] in *. destruct (used_pos thr E Ne Lw) as (UL & UP & US).
    split; [|exact E']. split; [exact F'|].
    assert (C : c' = smc_update prior (cat_of idx) (moves fp fl ys) next thr E e) by (apply (update_cat fp l thr _ E e idx Lw Li Ii)).
    split; [rewrite C, update_length by apply cat_of_ok; exact L|].
    split; [rewrite C; apply update_ess; [apply cat_of_ok|exact Ne]|].
    rewrite (fine_one fp fl supp l _ _ F'), E'.
    replace (m * T (S j)) with (m * T j + m * (T (S j) - T j)) by ring. rewrite exp_plus.
    apply Rmult_le_compat; [apply Rlt_le, exp_pos| |exact Nb|].
    - unfold weighted_mean. apply Rmult_le_pos; [|apply Rlt_le, Rinv_0_lt_compat, US].
      apply Rlt_le. apply dot_pos; [intros X; rewrite X in UL; destruct E; [congruence|discriminate]|rewrite map_length; lia|exact UP|].
      intros x Hx. apply in_map_iff in Hx. destruct Hx as (y & <- & _). rewrite Rmult_1_r. apply exp_pos.
    - unfold weighted_mean. apply Rmult_le_reg_r with (Rsum (weights_used thr E)); [exact US|]. unfold Rdiv. rewrite Rmult_assoc, Rinv_l, Rmult_1_r, Rmult_comm by lra.
      apply dot_le; [intros u Hu; apply Rlt_le, UP, Hu| |rewrite map_length; lia].
      intros x Hx. apply in_map_iff in Hx. destruct Hx as (y & <- & Hy). rewrite Rmult_1_r. apply g_bound, Sy, Hy.
  Qed.

  Lemma step_square j c psi B G C c0 : (j < J0)%nat -> sound j c -> 0 <= B -> (forall y, In y supp -> Rabs (psi y) <= B) ->
    (forall c', sound (S j) c' -> G c' <= C + (estimate psi c' + c0) ^ 2) ->
    step_mean fp fl supp K l thr c G <= C + (exp (m * T (S j)) * B) ^ 2 / (theta * INR n) + (estimate (Q j psi) c + c0) ^ 2.
  Proof.
    destruct c as [E e]. intros Hj Sd HB Hpsi HG. pose proof Sd as (Fi & LE & He & Nb).
    pose proof Fi as (Ne & Sh & Go & Lw & Lnc & Te & It & Su). cbn [fst snd] in *.
    pose proof np as Np. pose proof tp as Tp.
    destruct (used_pos thr E Ne Lw) as (UL & UP & US). destruct (cat_prob E Ne Lw) as [Pc Pw].
    assert (Pr : List.Forall prob (repeat (cat_law E) (length E))).
    { apply Forall_forall. intros d Hd. apply repeat_spec in Hd. subst d. exact Pc. }
    assert (Nc : nonneg (cat_law E)).
    { intros ap H. apply in_map_iff in H. destruct H as (i & <- & Hi). cbn [snd]. apply in_seq in Hi.
      apply Rmult_le_pos; [|apply Rlt_le, Rinv_0_lt_compat, Pw].
      rewrite (nth_indep _ NInf (p_lw dpart)) by (rewrite map_length; lia). rewrite map_nth.
      destruct (Lw (nth i E dpart)) as [r ->]; [apply nth_In; lia|]. apply Rlt_le, exp_pos. }
    set (U := Rsum (weights_used thr E)) in *. set (z := norm_constant (E, e)) in *.
    assert (Hz : 0 <= z) by (apply Rlt_le, exp_pos).
    set (h := fun y => z / U * (g j y * psi y)).
    set (D := fun p => kernel_law supp K (T j) (p_value p)).
    set (Kb := z / U * (exp (m * (T (S j) - T j)) * B)).
    assert (ZU : 0 <= z / U) by (apply Rmult_le_pos; [exact Hz|apply Rlt_le, Rinv_0_lt_compat, US]).
    assert (HK : forall y, In y supp -> Rabs (h y) <= Kb).
    { intros y Hy. unfold h, Kb. rewrite Rabs_mult, (Rabs_right (z / U)) by lra. apply Rmult_le_compat_l; [exact ZU|].
      rewrite Rabs_mult, (Rabs_right (g j y)) by (apply Rle_ge, Rlt_le, exp_pos).
      apply Rmult_le_compat; [apply Rlt_le, exp_pos|apply Rabs_pos|apply g_bound, Hy|apply Hpsi, Hy]. }
    assert (HQ : forall p, mean (D p) h = z / U * Q j psi (p_value p)) by (intros p; unfold h, D, UnbProofs.Q; apply mean_scal).
    assert (KB : Kb ^ 2 * U ^ 2 <= (exp (m * T (S j)) * B) ^ 2).
    { replace (m * T (S j)) with (m * T j + m * (T (S j) - T j)) by ring. rewrite exp_plus.
      replace (Kb ^ 2 * U ^ 2) with ((z * (exp (m * (T (S j) - T j)) * B)) ^ 2) by (unfold Kb; field; lra).
      apply pow_incr. pose proof (exp_pos (m * (T (S j) - T j))). split.
      - apply Rmult_le_pos; [exact Hz|]. apply Rmult_le_pos; lra.
      - rewrite Rmult_assoc. apply Rmult_le_compat_r; [apply Rmult_le_pos; lra|exact Nb]. }
    set (Rs := fun idx => resampled_ensemble (indices idx) thr E e).
    unfold step_mean.
    apply Rle_trans with (expect (repeat (cat_law E) (length E)) (fun idx => C + (dot (map (fun u => u ^ 2) (weights_used thr E)) (map (fun p => var (D p) h) (Rs idx))
      + (dot (weights_used thr E) (map (fun p => mean (D p) h) (Rs idx)) + c0) ^ 2))).
    { apply expect_mono.
      { apply Forall_forall. intros d Hd. apply repeat_spec in Hd. subst d. exact Nc. }
      intros idx Hidx. apply support_repeat in Hidx. destruct Hidx as [Li Hi].
      assert (Ii : List.Forall (fun i => (i < length E)%nat) idx).
      { eapply Forall_impl; [|exact Hi]. cbn. intros i H. unfold cat_law in H. rewrite map_map in H. cbn in H. rewrite map_id in H. apply in_seq in H. lia. }
      fold (Rs idx). rewrite Te. fold D.
      assert (RL : length (Rs idx) = length E /\ forall p, In p (Rs idx) -> In (p_value p) supp).
      { unfold Rs. destruct (update_cat fp l thr (moves fp fl []) E e idx Lw Li Ii) as [_ ->]. split.
        - apply resampled_length, cat_of_ok.
        - intros p Hp. destruct (resampled_in _ _ (cat_of_ok idx) E e p Hp) as (q & Hq & -> & _). apply Su, Hq. }
      destruct RL as [RL RS].
      assert (PK : List.Forall prob (map D (Rs idx))).
      { apply Forall_forall. intros d Hd. apply in_map_iff in Hd. destruct Hd as (p & <- & Hp). apply (kernel_ok j _ Hj), RS, Hp. }
      apply Rle_trans with (expect (map D (Rs idx)) (fun ys => C + 1 * (dot (weights_used thr E) (map h ys) + c0) ^ 2)).
      2:{ rewrite expect_affine by exact PK. rewrite expect_square1 by exact PK. rewrite !map_map. lra. }
      apply expect_mono.
      { apply Forall_forall. intros d Hd. apply in_map_iff in Hd. destruct Hd as (p & <- & Hp). apply (kernel_ok j _ Hj), RS, Hp. }
      intros ys Hys.
      assert (L12 : length ys = length (Rs idx) /\ forall y, In y ys -> In y supp).
      { eapply (support_map _ _ (fun y => In y supp) ys); [|exact Hys]. intros p y _ Hy. apply (kernel_supp j (p_value p)), Hy. }
      destruct L12 as [Ly Sy].
      destruct (step_sound j E e idx ys Sd Li Ii ltac:(congruence) Sy) as [S' E'].
      eapply Rle_trans; [apply HG, S'|]. rewrite E'. rewrite Rmult_1_l. apply Rplus_le_compat_l. right. f_equal. f_equal.
      unfold h. rewrite (dot_map_scal (z / U) (fun y => g j y * psi y)). unfold weighted_mean. fold U z. field. lra. }
    unfold Rs, estimate. cbn [fst]. fold z.
    destruct (resample_criterion thr E) eqn:Cr.
    - assert (WU : weights_used thr E = repeat 1 n).
      { rewrite <- LE. unfold resample_criterion in Cr. unfold weights_used. destruct (p_ess (first E)); cbn in Cr; try discriminate; [|reflexivity].
        unfold Rleb in Cr. destruct (Rle_dec _ _); [reflexivity|discriminate]. }
      assert (Uv : U = INR n) by (unfold U; rewrite WU; apply Rsum_ones).
      set (d := cat_law E) in *. set (m1 := fun p => mean (D p) h). set (v1 := fun p => var (D p) h).
      set (f := fun i => nth i E dpart).
      assert (DV : forall v1 : part -> R, (forall p lw es, v1 (set_weight lw es p) = v1 p) -> forall idx,
        map v1 (resampled_ensemble (indices idx) thr E e) = map (fun i => v1 (f i)) idx).
      { intros v Hv idx. unfold resampled_ensemble. rewrite Cr. unfold resample, indices. cbv zeta. rewrite map_map. apply map_ext. intros i. apply Hv. }
      rewrite (expect_ext _ _ (fun idx => C + 1 * (dot (repeat 1 n) (map (fun i => v1 (f i)) idx) + (dot (repeat 1 n) (map (fun i => m1 (f i)) idx) + c0) ^ 2))).
      2:{ intros idx _. rewrite WU, map_repeat, pow1. rewrite (DV v1), (DV m1) by reflexivity. ring. }
      rewrite expect_affine, expect_plus, expect_dot, expect_square1 by exact Pr.
      rewrite LE, !map_repeat, pow1, !dot_scaled.
      assert (M1 : mean d (fun i => m1 (f i)) = z / U * weighted_mean (weights (map p_lw E)) (map (fun p => Q j psi (p_value p)) E)).
      { unfold d, f. rewrite (mean_cat E m1 Ne Lw). unfold m1. rewrite (map_ext _ (fun p => z / U * Q j psi (p_value p))) by exact HQ.
        unfold weighted_mean. rewrite (dot_map_scal (z / U) (fun p => Q j psi (p_value p))). field. split; lra. }
      rewrite M1.
      assert (TOT : mean d (fun i => v1 (f i)) + var d (fun i => m1 (f i)) <= Kb ^ 2).
      { apply Rle_trans with (mean d (fun i => mean (D (f i)) (fun y => h y ^ 2)) - mean d (fun i => m1 (f i)) ^ 2).
        - right. unfold v1, var. rewrite (mean_fext d (fun i => mean (D (f i)) (fun a0 => h a0 ^ 2) - mean (D (f i)) h ^ 2)
            (fun i => mean (D (f i)) (fun a0 => h a0 ^ 2) + (- 1) * m1 (f i) ^ 2)) by (intros i; unfold m1; ring).
          rewrite mean_plus, mean_scal. ring.
        - assert (mean d (fun i => mean (D (f i)) (fun y => h y ^ 2)) <= Kb ^ 2); [|pose proof (pow2_ge_0 (mean d (fun i => m1 (f i)))); lra].
          rewrite <- (mean_const d (Kb ^ 2) Pc). apply mean_mono; [exact Nc|]. intros i Hi.
          assert (In (p_value (f i)) supp).
          { unfold f. apply Su, nth_In. unfold d, cat_law in Hi. rewrite map_map in Hi. cbn in Hi. rewrite map_id in Hi. apply in_seq in Hi. lia. }
          destruct (kernel_ok j _ Hj H) as [P N]. apply (mean_bound (D (f i)) h Kb P N).
          intros y Hy. apply HK. apply (kernel_supp j (p_value (f i))), Hy. }
      assert (E2 : INR n * (z / U * weighted_mean (weights (map p_lw E)) (map (fun p => Q j psi (p_value p)) E)) + c0
        = z * weighted_mean (weights (map p_lw E)) (map (fun p => Q j psi (p_value p)) E) + c0) by (rewrite Uv; field; lra).
      rewrite E2.
      assert (E3 : INR n * Kb ^ 2 <= (exp (m * T (S j)) * B) ^ 2 / (theta * INR n)).
      { rewrite Uv in KB. apply Rle_trans with ((exp (m * T (S j)) * B) ^ 2 * / INR n).
        - apply Rmult_le_reg_r with (INR n); [exact Np|]. rewrite (Rmult_assoc _ (/ INR n)), Rinv_l by lra. lra.
        - unfold Rdiv. apply Rmult_le_compat_l; [apply pow2_ge_0|]. apply Rinv_le_contravar; [apply Rmult_lt_0_compat; lra|].
          pose proof (Rmin_l 1 thr). unfold PfVarProofs.theta. nra. }
      pose proof (Rmult_le_compat_l (INR n) _ _ (Rlt_le _ _ Np) TOT). lra.
    - rewrite (expect_ext _ _ (fun _ => C + (dot (map (fun u => u ^ 2) (weights_used thr E)) (map (fun p => var (D p) h) E)
        + (dot (weights_used thr E) (map (fun p => mean (D p) h) E) + c0) ^ 2))) by (intros idx _; unfold resampled_ensemble; rewrite Cr; reflexivity).
      rewrite expect_const by exact Pr.
      assert (UW : weights_used thr E = weights (map p_lw E)).
      { unfold resample_criterion in Cr. unfold weights_used. destruct (p_ess (first E)); cbn in Cr; try discriminate; try reflexivity.
        unfold Rleb in Cr. destruct (Rle_dec _ _); [discriminate|reflexivity]. }
      assert (E1 : dot (weights_used thr E) (map (fun p => mean (D p) h) E) = z * weighted_mean (weights (map p_lw E)) (map (fun p => Q j psi (p_value p)) E)).
      { rewrite (map_ext _ (fun p => z / U * Q j psi (p_value p))) by exact HQ.
        rewrite (dot_map_scal (z / U) (fun p => Q j psi (p_value p))). unfold weighted_mean. rewrite <- UW. fold U. field. lra. }
      rewrite E1.
      assert (E2 : dot (map (fun u => u ^ 2) (weights_used thr E)) (map (fun p => var (D p) h) E) <= Rsum (map (fun u => u ^ 2) (weights_used thr E)) * Kb ^ 2).
      { apply dot_le.
        - intros u Hu. apply in_map_iff in Hu. destruct Hu as (v & <- & _). apply pow2_ge_0.
        - intros v Hv. apply in_map_iff in Hv. destruct Hv as (p & <- & Hp). destruct (kernel_ok j _ Hj (Su p Hp)) as [P N].
          apply var_bound; [exact P|exact N|]. intros y Hy. apply HK. apply (kernel_supp j (p_value p)), Hy.
        - rewrite !map_length, UL. reflexivity. }
      pose proof (used_square E e j Sd) as E3. fold U in E3.
      assert (E4 : Rsum (map (fun u => u ^ 2) (weights_used thr E)) * Kb ^ 2 <= (exp (m * T (S j)) * B) ^ 2 / (theta * INR n)).
      { replace (Rsum (map (fun u => u ^ 2) (weights_used thr E)) * Kb ^ 2)
          with ((Kb ^ 2 * U ^ 2) * (Rsum (map (fun u => u ^ 2) (weights_used thr E)) / U ^ 2)) by (field; lra).
        unfold Rdiv at 2. apply Rmult_le_compat; [apply Rmult_le_pos; apply pow2_ge_0| |exact KB|exact E3].
        apply Rmult_le_pos; [|apply Rlt_le, Rinv_0_lt_compat, pow_lt, US].
        rewrite <- (map_id (map _ _)). apply Rlt_le, Rsum_pos.
        - intros X. apply map_eq_nil in X. rewrite X in UL. destruct E; [congruence|discriminate].
        - intros x Hx. apply in_map_iff in Hx. destruct Hx as (u & <- & Hu). apply pow_lt, UP, Hu. }
      lra.
  Qed.

  (** * Whole runs *)
  Lemma run_square J : forall j c phi B G C c0, (j + J <= J0)%nat -> sound j c -> 0 <= B -> (forall y, In y supp -> Rabs (phi y) <= B) ->
    (forall c', sound (j + J)%nat c' -> G c' <= C + (estimate phi c' + c0) ^ 2) ->
    run_mean fp fl supp K l thr J c G
    <= C + INR J * ((exp (m * T (j + J)%nat) * B) ^ 2 / (theta * INR n)) + (estimate (Qs j J phi) c + c0) ^ 2.
  Proof.
    induction J as [|J IH]; intros j c phi B G C c0 Hj Sd HB Hphi HG; cbn [run_mean UnbProofs.Qs].
    - cbn [INR]. rewrite Rmult_0_l, Rplus_0_r. apply HG. rewrite Nat.add_0_r. exact Sd.
    - eapply Rle_trans.
      + apply (step_square j c (Qs (S j) J phi) (exp (m * (T (S j + J)%nat - T (S j))) * B) _
          (C + INR J * ((exp (m * T (S j + J)%nat) * B) ^ 2 / (theta * INR n))) c0); [lia|exact Sd| | |].
        * apply Rmult_le_pos; [apply Rlt_le, exp_pos|exact HB].
        * intros y Hy. apply Qs_bound; [lia|exact Hy|exact Hphi].
        * intros c' Sc. apply IH; [lia|exact Sc|exact HB|exact Hphi|]. intros c2 S2. apply HG.
          replace (j + S J)%nat with (S j + J)%nat by lia. exact S2.
      + rewrite <- Rmult_assoc, <- exp_plus. replace (m * T (S j) + m * (T (S j + J)%nat - T (S j))) with (m * T (S j + J)%nat) by ring.
        replace (j + S J)%nat with (S j + J)%nat by lia. rewrite S_INR. right. ring.
  Qed.

  (** the start, with any bookkeeping that begins at iteration 0 *)
  Lemma start_sound vs k st e : length vs = n -> incl vs supp -> s_iter e = 0%nat ->
    let c := (fst (smc_startup prior lik gprior glik next vs k st), e) in
    sound 0 c /\ forall phi, estimate phi c = dot (repeat 1 n) (map (fun v => exp (- T 0%nat * fl v) * phi v) vs) / INR n.
  Proof.
    intros L I He c. assert (Ne : vs <> []) by (intros X; rewrite X in L; cbn in L; lia).
    destruct (startup_fine fp fl supp gprior glik l vs k st Ne (fun v Hv => I v Hv)) as [F E]. rewrite L in E.
    assert (E' : forall phi, estimate phi c = dot (repeat 1 n) (map (fun v => exp (- T 0%nat * fl v) * phi v) vs) / INR n) by exact E.
    split; [|exact E'].
    assert (F' : fine 0 c).
    { destruct F as (F1 & F2 & F3 & F4 & F5 & F6 & F7 & F8). repeat (split; [assumption|]). exact F8. }
    split; [exact F'|]. split; [unfold c; cbn [fst]; rewrite startup_length; exact L|]. split; [apply startup_ess, Ne|].
    rewrite (fine_one fp fl supp l _ _ F'), E'. pose proof np as Np. apply Rmult_le_reg_r with (INR n); [exact Np|].
    unfold Rdiv. rewrite Rmult_assoc, Rinv_l, Rmult_1_r by lra.
    apply Rle_trans with (Rsum (repeat 1 n) * exp (m * T 0%nat)); [|rewrite Rsum_ones; right; ring]. apply dot_le.
    - intros u Hu. apply repeat_spec in Hu. lra.
    - intros x Hx. apply in_map_iff in Hx. destruct Hx as (v & <- & Hv). rewrite Rmult_1_r.
      pose proof (Hm v (I v Hv)). pose proof (Tpos 0%nat). cbv beta in *.
      assert (- T 0%nat * fl v <= m * T 0%nat) by nra.
      destruct (Req_dec (- T 0%nat * fl v) (m * T 0%nat)) as [->|N]; [lra|]. apply Rlt_le, exp_increasing. lra.
    - rewrite repeat_length, map_length. auto.
  Qed.

  Lemma smc_square k st (e : list vec -> sextra) J phi B G : (J <= J0)%nat -> (forall vs, s_iter (e vs) = 0%nat) -> 0 <= B -> (forall y, In y supp -> Rabs (phi y) <= B) ->
    let target := gsum fp fl supp (T J) phi / gsum fp fl supp 0 (fun _ => 1) in
    (forall c, sound J c -> G c <= (estimate phi c - target) ^ 2) ->
    expect (repeat (prior_law fp fl supp) n) (fun vs => run_mean fp fl supp K l thr J (fst (smc_startup prior lik gprior glik next vs k st), e vs) G)
    <= INR (S J) * (exp (m * T J) * B) ^ 2 / (theta * INR n).
  Proof.
    intros HJ He HB Hphi target HG. pose proof np as Np. pose proof tp as Tp.
    assert (Z : 0 < gsum fp fl supp 0 (fun _ => 1)).
    { apply Rsum_pos; [exact supp_ne|]. intros x _. unfold gam. pose proof (exp_pos (- fp x - 0 * fl x)). lra. }
    assert (P1 : prob (prior_law fp fl supp)).
    { unfold prob, prior_law. rewrite map_map. cbn [snd].
      rewrite (Rsum_ext _ (fun x => / gsum fp fl supp 0 (fun _ => 1) * (gam fp fl 0 x * 1))) by (intros; unfold Rdiv; ring).
      rewrite Rsum_scal. fold (gsum fp fl supp 0 (fun _ => 1)). field. lra. }
    assert (N1 : nonneg (prior_law fp fl supp)).
    { intros ap H. apply in_map_iff in H. destruct H as (x & <- & Hx). cbn [snd]. apply Rmult_le_pos; [apply Rlt_le, exp_pos|apply Rlt_le, Rinv_0_lt_compat, Z]. }
    assert (Pr : List.Forall prob (repeat (prior_law fp fl supp) n)).
    { apply Forall_forall. intros d Hd. apply repeat_spec in Hd. subst d. exact P1. }
    assert (Nr : List.Forall nonneg (repeat (prior_law fp fl supp) n)).
    { apply Forall_forall. intros d Hd. apply repeat_spec in Hd. subst d. exact N1. }
    assert (Hs : forall x, In x (map fst (prior_law fp fl supp)) -> In x supp).
    { unfold prior_law. rewrite map_map. cbn. rewrite map_id. auto. }
    set (A := INR J * ((exp (m * T J) * B) ^ 2 / (theta * INR n))).
    set (h := fun v => / INR n * (exp (- T 0%nat * fl v) * Qs 0%nat J phi v)).
    apply Rle_trans with (expect (repeat (prior_law fp fl supp) n) (fun vs => A + 1 * (dot (repeat 1 n) (map h vs) + - target) ^ 2)).
    { apply expect_mono; [exact Nr|]. intros vs Hvs. apply support_repeat in Hvs. destruct Hvs as [Lv Hv].
      assert (Sv : incl vs supp) by (rewrite Forall_forall in Hv; intros x Hx; apply Hs, Hv, Hx).
      destruct (start_sound vs k st (e vs) Lv Sv (He vs)) as [Sd Es].
      eapply Rle_trans.
      - apply (run_square J 0 _ phi B G 0 (- target) HJ Sd HB Hphi). intros c Sc. rewrite Rplus_0_l. apply HG. exact Sc.
      - cbn [plus]. rewrite Rplus_0_l, Rmult_1_l. apply Rplus_le_compat_l. right. f_equal. f_equal. rewrite Es.
        unfold h. rewrite (dot_map_scal (/ INR n) (fun v => exp (- T 0%nat * fl v) * Qs 0%nat J phi v)). unfold Rdiv. ring. }
    rewrite expect_affine by exact Pr. rewrite expect_square1 by exact Pr. rewrite !map_repeat, pow1, !dot_scaled.
    assert (M1 : INR n * mean (prior_law fp fl supp) h = target).
    { unfold h. rewrite mean_scal, <- Rmult_assoc, Rinv_r, Rmult_1_l by lra.
      pose proof (gsum_Qs fp fl supp K l Tpos inv J 0%nat phi) as GQ. cbn [plus] in GQ. unfold target. rewrite <- GQ.
      unfold mean, prior_law. rewrite map_map. cbn [fst snd].
      rewrite (Rsum_ext _ (fun x => / gsum fp fl supp 0 (fun _ => 1) * (gam fp fl (T 0%nat) x * Qs 0%nat J phi x))).
      2: { intros x _. unfold gam. replace (- fp x - T 0%nat * fl x) with ((- fp x - 0 * fl x) + - T 0%nat * fl x) by ring.
           rewrite exp_plus. unfold Rdiv. ring. }
      rewrite Rsum_scal. fold (gsum fp fl supp (T 0%nat) (Qs 0%nat J phi)). cbv beta. field. lra. }
    rewrite M1.
    assert (Vb : var (prior_law fp fl supp) h <= (/ INR n * (exp (m * T J) * B)) ^ 2).
    { apply var_bound; [exact P1|exact N1|]. intros x Hx. apply Hs in Hx. unfold h.
      rewrite Rabs_mult, (Rabs_right (/ INR n)) by (apply Rle_ge, Rlt_le, Rinv_0_lt_compat, Np).
      apply Rmult_le_compat_l; [apply Rlt_le, Rinv_0_lt_compat, Np|].
      rewrite Rabs_mult, (Rabs_right (exp _)) by (apply Rle_ge, Rlt_le, exp_pos).
      replace (m * T J) with (m * T 0%nat + m * (T J - T 0%nat)) by ring. rewrite exp_plus, Rmult_assoc.
      apply Rmult_le_compat; [apply Rlt_le, exp_pos|apply Rabs_pos| |apply (Qs_bound phi B J 0%nat); assumption].
      pose proof (Hm x Hx). pose proof (Tpos 0%nat). cbv beta in *.
      assert (- T 0%nat * fl x <= m * T 0%nat) by nra.
      destruct (Req_dec (- T 0%nat * fl x) (m * T 0%nat)) as [->|N]; [lra|]. apply Rlt_le, exp_increasing. lra. }
    assert (Vn : INR n * var (prior_law fp fl supp) h <= (exp (m * T J) * B) ^ 2 / (theta * INR n)).
    { eapply Rle_trans; [apply Rmult_le_compat_l; [lra|exact Vb]|].
      apply Rle_trans with ((exp (m * T J) * B) ^ 2 * / INR n); [right; field; lra|].
      unfold Rdiv. apply Rmult_le_compat_l; [apply pow2_ge_0|]. apply Rinv_le_contravar; [apply Rmult_lt_0_compat; lra|].
      pose proof (Rmin_l 1 thr). unfold PfVarProofs.theta. nra. }
    unfold A. rewrite S_INR. unfold Rdiv in *. lra.
  Qed.
End V.

(** * Runs computed from one key *)
Lemma kexp_linear {W} (P : law W) a c F G : forall ks w,
  kexp P ks (fun w => a * F w + c * G w) w = a * kexp P ks F w + c * kexp P ks G w.
Proof.
  induction ks as [|k ks IH]; intros w; cbn [kexp]; [reflexivity|].
  rewrite <- !mean_scal, <- mean_plus. apply mean_fext. intros x. apply IH.
Qed.
Lemma has_mean_linear {W} (P : law W) a c F G u v : has_mean P F u -> has_mean P G v -> has_mean P (fun w => a * F w + c * G w) (a * u + c * v).
Proof.
  intros [ks Hu] [ks' Hv]. exists (ks ++ ks'). intros l w N I. rewrite kexp_linear, (Hu l w N), (Hv l w N); [reflexivity| |];
    intros k Hk; apply I, in_or_app; auto.
Qed.

Section R.
  Context {W : Type}.
  Variable P : law W.
  Hypothesis HP : prob P.
  Hypothesis HP0 : forall xp, In xp P -> 0 <= snd xp.
  Variable psamp : W -> vec.
  Variable cat : W -> list xr -> nat -> list nat.
  Variable fp fl : vec -> R.
  Variable pr : vec -> xr.
  Variable supp : list vec.
  Variable gprior glik : vec -> key -> vec.
  Variable l : list R.
  Variable thr st : R.
  Variable n J0 : nat.
  Variable m : R.

  Hypothesis Hin : forall x, In x supp -> pr x = Fin (fp x).
  Hypothesis Hnd : NoDup supp.
  Hypothesis Hne : supp <> [].
  Hypothesis Tpos : forall j, 0 < nth j l (last l 0).
  Hypothesis Tinc : forall j, nth j l (last l 0) <= nth (S j) l (last l 0).
  Hypothesis Hm : forall x, In x supp -> - m <= fl x.
  Hypothesis Hthr : 0 < thr.
  Hypothesis Hn : (0 < n)%nat.
  Notation T := (fun j => nth j l (last l 0)).
  Hypothesis Hcat : forall x, categorical_ok (fun _ => cat x).
  Hypothesis Hmult : forall E e, reached fp fl supp gprior glik l thr n (E, e) -> (s_iter e < J0)%nat ->
    resample_criterion thr E = true -> multinomial P cat E.
  Hypothesis Hps : forall phi, mean P (fun x => phi (psamp x)) = mean (prior_law fp fl supp) phi.
  Hypothesis Hpin : forall x, In (psamp x) supp.
  Variable inner : (key -> W) -> R -> R -> key -> vec -> (vec * xr * xr) * key.
  Variable ival : (key -> W) -> R -> key -> vec -> vec.
  Variable ikeys : key -> list key.
  Variable Kin : R -> vec -> vec -> R.
  Hypothesis inner_eq : forall w j k v, In v supp -> In (ival w (T j) k v) supp
    /\ exists al fk, inner w (T j) st k v = ((ival w (T j) k v, pot fp fl (T j) (ival w (T j) k v), al), fk).
  Hypothesis ikeys_derived : forall k q, In q (ikeys k) -> derived k q.
  Hypothesis ival_drawn : forall j k v, (j < J0)%nat -> In v supp ->
    drawn P (ikeys k) (fun w => ival w (T j) k v) (mean (kernel_law supp Kin (T j) v)).
  Hypothesis rows : rows_ok supp Kin.
  Hypothesis inv : invariant_ok fp fl supp Kin.
  Variable after : key -> key.
  Hypothesis after_derived : forall k, derived k (after k).

  Lemma kin_pos j x y : (j < J0)%nat -> In x supp -> In y supp -> 0 <= Kin (T j) x y.
  Proof.
    intros Hj Hx Hy. destruct (ival_drawn j (KRoot 0) x Hj Hx) as [_ D]. specialize (D (fun v => if dec (y = v) then 1 else 0)).
    assert (E : mean (kernel_law supp Kin (T j) x) (fun v => if dec (y = v) then 1 else 0) = Kin (T j) x y).
    { unfold mean, kernel_law. rewrite map_map. cbn [fst snd].
      rewrite (Rsum_ext _ (fun v => if dec (y = v) then Kin (T j) x v else 0)) by (intros v _; destruct (dec _); ring).
      apply (Rsum_single y (Kin (T j) x) supp Hnd). intros C. contradiction. }
    rewrite E in D. apply (has_mean_le P HP HP0 (fun _ => 0) (fun w => if dec (y = ival w (T j) (KRoot 0) x) then 1 else 0)).
    - intros w. destruct (dec _); lra.
    - exists []. intros ks w _ _. clear - HP. revert w. induction ks as [|k ks IH]; intros w; cbn [kexp]; [reflexivity|].
      rewrite (mean_fext _ _ (fun _ => 0)) by (intros; apply IH). apply mean_const, HP.
    - eexists. exact D.
  Qed.

  Notation chain w k := (run_chain psamp cat fl pr gprior glik l thr st n inner after w k).
  Definition avg (phi : vec -> R) (E : ensemble) : R := weighted_mean (weights (map p_lw E)) (map (fun p => phi (p_value p)) E).
  Notation nc E := (exp (rval (p_lnc (first E)))).
  Definition ratio (t : R) (phi : vec -> R) : R := gsum fp fl supp t phi / gsum fp fl supp 0 (fun _ => 1).

  Lemma recorded_mean k J (G : ensemble * sextra -> R) : l <> [] -> (forall j, (j < length l - 1)%nat -> nth j l 0 < last l 0) -> (J < length l)%nat -> (J <= J0)%nat ->
    (forall c, G (erases c) = G c) -> (forall E e e', G (E, e) = G (E, e')) ->
    has_mean P (fun w => G (nth J (chain w k) [], SExtra 0 k true st))
      (expect (repeat (prior_law fp fl supp) n) (fun vs => run_mean fp fl supp Kin l thr J (start_of fp fl gprior glik l st after vs (KSplit k 2 0)) G)).
  Proof.
    intros Hl Hinc HJ HJ0 HG He.
    destruct (smc_drawn P HP psamp cat fp fl pr supp gprior glik l thr st n J0 Hin Tpos Hn Hcat Hmult Hps Hpin inner ival ikeys Kin inner_eq ikeys_derived ival_drawn
      after after_derived J k HJ0) as (ks & [_ H]).
    exists ks. specialize (H G). cbv beta in H. eapply mean_on_ext; [|exact H]. intros w. cbv beta. rewrite HG.
    destruct (chain_nth P psamp cat fp fl pr supp gprior glik l thr st n J0 Hin Tpos Hn Hcat Hmult Hpin inner ival ikeys Kin inner_eq ival_drawn
      after w k Hl Hinc) as [_ Hc].
    cbv zeta in Hc. unfold run_chain. rewrite (Hc J HJ).
    match goal with |- G ?c = _ => rewrite (surjective_pairing c) end. apply He.
  Qed.

  Definition bound (J : nat) (B : R) : R := INR (S J) * (exp (m * T J) * B)^2 / (Rmin 1 thr * INR n).
  Lemma bound_pos J B : 0 <= bound J B.
  Proof.
    unfold bound, Rdiv. apply Rmult_le_pos; [apply Rmult_le_pos; [apply pos_INR|apply pow2_ge_0]|].
    left. apply Rinv_0_lt_compat, Rmult_lt_0_compat; [apply Rmin_pos; lra|apply lt_0_INR, Hn].
  Qed.

  Lemma recorded_square k J phi B : l <> [] -> (forall j, (j < length l - 1)%nat -> nth j l 0 < last l 0) -> (J < length l)%nat -> (J <= J0)%nat ->
    0 <= B -> (forall y, In y supp -> Rabs (phi y) <= B) ->
    exists v, has_mean P (fun w => let E := nth J (chain w k) [] in (nc E * avg phi E - ratio (T J) phi)^2) v /\ v <= bound J B.
  Proof.
    intros Hl Hinc HJ HJ0 HB Hphi.
    pose proof (recorded_mean k J (fun c => (estimate phi c - ratio (T J) phi)^2) Hl Hinc HJ HJ0
      (fun c => f_equal (fun z => (z - ratio (T J) phi)^2) (estimate_erases phi c)) (fun E e e' => eq_refl)) as H.
    eexists. split; [exact H|].
    apply (smc_square fp fl supp Kin gprior glik l thr n J0 m) with (phi := phi); try assumption; try reflexivity.
    - intros j x y. apply kin_pos.
    - intros c _. apply Rle_refl.
  Qed.

  Lemma recorded_fine w k J : l <> [] -> (forall j, (j < length l - 1)%nat -> nth j l 0 < last l 0) -> (J < length l)%nat ->
    let E := nth J (chain w k) [] in
    length E = n /\ nc E = nc E * avg (fun _ => 1) E
    /\ forall phi B, 0 <= B -> (forall y, In y supp -> Rabs (phi y) <= B) -> Rabs (avg phi E) <= B.
  Proof.
    intros Hl Hinc HJ.
    destruct (chain_nth P psamp cat fp fl pr supp gprior glik l thr st n J0 Hin Tpos Hn Hcat Hmult Hpin inner ival ikeys Kin inner_eq ival_drawn
      after w k Hl Hinc) as [_ Hc].
    cbv zeta in Hc. unfold run_chain. cbv zeta. rewrite (Hc J HJ). clear Hc.
    destruct (run_fine psamp cat fp fl pr supp gprior glik l thr st n Hin Tpos Hn Hcat Hpin inner ival inner_eq after w k J) as (F & _ & L & _).
    cbv zeta in F, L. match goal with |- length (fst ?c) = _ /\ _ => set (cc := c) in * end.
    pose proof (estimate_erases (fun _ => 1) cc) as E1. rewrite <- (fine_one fp fl supp l J _ F) in E1.
    destruct F as (Ne & _ & _ & Lw & _ & _ & _ & Sp). unfold erases in *. cbn [fst snd] in *. rewrite map_length in L.
    split; [exact L|]. split.
    - unfold estimate, norm_constant in E1. cbn [fst] in E1. unfold avg. rewrite <- E1. destruct (fst cc); reflexivity.
    - intros phi B HB Hphi. destruct (cat_prob _ Ne Lw) as [_ Pw'].
      set (ws := weights (map p_lw (fst cc))). assert (Pw : 0 < Rsum ws) by (rewrite map_map in Pw'; exact Pw').
      assert (Lws : length ws = length (fst cc)) by (unfold ws, weights; rewrite !map_length; reflexivity).
      unfold avg, weighted_mean. fold ws. unfold Rdiv. rewrite Rabs_mult, (Rabs_right (/ Rsum ws)) by (apply Rle_ge, Rlt_le, Rinv_0_lt_compat; exact Pw).
      apply Rmult_le_reg_r with (Rsum ws); [exact Pw|]. rewrite Rmult_assoc, Rinv_l, Rmult_1_r by lra. rewrite (Rmult_comm B).
      apply dot_abs.
      + intros u Hu. pose proof (weights_nonneg (map p_lw (fst cc))) as Nn. rewrite Forall_forall in Nn. apply Nn, Hu.
      + intros x Hx. apply in_map_iff in Hx. destruct Hx as (p & <- & Hp). apply Hphi. apply (Sp (erase p)), in_map, Hp.
      + rewrite map_length. exact Lws.
  Qed.

  Lemma average_square k J phi B : l <> [] -> (forall j, (j < length l - 1)%nat -> nth j l 0 < last l 0) -> (J < length l)%nat -> (J <= J0)%nat ->
    0 <= B -> (forall y, In y supp -> Rabs (phi y) <= B) ->
    exists v, has_mean P (fun w => (avg phi (nth J (chain w k) []) - ratio (T J) phi / ratio (T J) (fun _ => 1))^2) v
      /\ v <= 4 * bound J B / ratio (T J) (fun _ => 1) ^ 2.
  Proof.
    intros Hl Hinc HJ HJ0 HB Hphi.
    assert (Gp : forall t, 0 < gsum fp fl supp t (fun _ => 1)).
    { intros t. apply Rsum_pos; [exact Hne|]. intros x _. unfold gam. pose proof (exp_pos (- fp x - t * fl x)). lra. }
    assert (Rp : 0 < ratio (T J) (fun _ => 1)) by (apply Rdiv_lt_0_compat; apply Gp).
    destruct (recorded_square k J phi B Hl Hinc HJ HJ0 HB Hphi) as (u & Hu & Bu).
    destruct (recorded_square k J (fun _ => 1) 1 Hl Hinc HJ HJ0) as (v & Hv & Bv); [lra|intros; rewrite Rabs_R1; lra|].
    pose proof (recorded_mean k J (fun c => (avg phi (fst c) - ratio (T J) phi / ratio (T J) (fun _ => 1))^2) Hl Hinc HJ HJ0) as H.
    set (rho := ratio (T J) (fun _ => 1)) in *. set (r := ratio (T J) phi) in *.
    eexists. split.
    - apply H; [|reflexivity]. intros c. unfold erases, avg. cbn [fst]. rewrite !map_map. reflexivity.
    - eapply Rle_trans.
      + eapply (has_mean_le P HP HP0); [|apply H; [|reflexivity]|apply (has_mean_linear P (2 / rho ^ 2) (2 * B ^ 2 / rho ^ 2) _ _ _ _ Hu Hv)].
        * intros w. cbv zeta beta. cbn [fst]. destruct (recorded_fine w k J Hl Hinc HJ) as (_ & N1 & Bd). cbv zeta in N1, Bd. specialize (Bd phi B HB Hphi).
          rewrite <- N1. set (z := nc _). set (a := avg phi _) in *.
          apply Rmult_le_reg_r with (rho ^ 2); [apply pow_lt, Rp|].
          apply Rle_trans with ((a * (rho - z) + (z * a - r)) ^ 2); [right; field; lra|].
          apply Rle_trans with (2 * (z * a - r) ^ 2 + 2 * B ^ 2 * (z - rho) ^ 2); [|right; field; lra].
          assert (A2 : a ^ 2 <= B ^ 2) by (rewrite <- (pow2_abs a); pose proof (Rabs_pos a); nra).
          pose proof (pow2_ge_0 (a * (rho - z) - (z * a - r))). pose proof (pow2_ge_0 (z - rho)). nra.
        * intros c. unfold erases, avg. cbn [fst]. rewrite !map_map. reflexivity.
      + assert (I : 0 < / rho ^ 2) by (apply Rinv_0_lt_compat, pow_lt, Rp).
        assert (Eb : B ^ 2 * bound J 1 = bound J B).
        { unfold bound. unfold Rdiv. ring. }
        apply Rle_trans with (/ rho ^ 2 * (2 * u + 2 * (B ^ 2 * v))); [right; field; lra|].
        apply Rle_trans with (/ rho ^ 2 * (4 * bound J B)); [|right; field; lra].
        apply Rmult_le_compat_l; [lra|]. assert (B ^ 2 * v <= B ^ 2 * bound J 1) by (apply Rmult_le_compat_l; [apply pow2_ge_0|exact Bv]). lra.
  Qed.
End R.
