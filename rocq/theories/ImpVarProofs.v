(** Proofs about the squared errors of importance-sampling ABC. *)
From Coq Require Import Reals List Bool Arith Lia Lra.
From Verif Require Import XR Keys LoopModel LoopProofs WeightsSpec McmcSpec McmcModel AbcModel UnbSpec UnbProofs
  KexpSpec KexpProofs RejLawProofs BackLawProofs BackLawProps PfProofs PfVarProofs ImpModel ImpSpec ImpProofs ImpProps ImpVarSpec.
Import ListNotations.
Open Scope R_scope.

Lemma dot_repeat c n xs : length xs = n -> dot (repeat c n) xs = c * Rsum xs.
Proof. revert xs. induction n as [|n IH]; intros [|x xs] L; cbn in *; try discriminate; [ring|]. rewrite IH by lia. ring. Qed.
Lemma Rsum_repeat a m : Rsum (repeat a m) = INR m * a.
Proof. induction m as [|m IH]; [cbn; lra|]. cbn [repeat Rsum]. rewrite IH, S_INR. lra. Qed.
Lemma expect_scale {A} (ds : list (law A)) c f : expect ds (fun x => c * f x) = c * expect ds f.
Proof. revert f. induction ds as [|d ds IH]; intros f; cbn; [reflexivity|]. rewrite <- mean_scal. apply mean_fext. intros a. apply IH. Qed.

(** independent samples, all but the first with mean [p] *)
Lemma square_first {A} (d e : law A) (h : A -> R) p n : prob d -> prob e -> (1 <= n)%nat -> mean e h = p ->
  expect (d :: repeat e (n - 1)) (fun l => (Rsum (map h l) / INR n - p) ^ 2)
  = (mean d (fun a => (h a - p) ^ 2) + INR (n - 1) * mean e (fun a => (h a - p) ^ 2)) / INR n ^ 2.
Proof.
  intros Pd Pe Hn Hp. assert (N : 0 < INR n) by (apply lt_0_INR; lia).
  assert (Ld : forall x, List.Forall2 (fun a d => In a (map fst d)) x (d :: repeat e (n - 1)) -> length x = n).
  { intros x H. assert (L : length x = length (d :: repeat e (n - 1))) by (induction H; cbn; congruence). cbn [length] in L. rewrite repeat_length in L. lia. }
  rewrite (expect_ext _ _ (fun x => (dot (repeat (/ INR n) n) (map h x) + - p) ^ 2)).
  2:{ intros x Hx. apply Ld in Hx. rewrite dot_repeat by (rewrite map_length; exact Hx). f_equal. unfold Rdiv. ring. }
  rewrite expect_square1.
  2:{ constructor; [exact Pd|]. apply Forall_forall. intros x Hx. apply repeat_spec in Hx. subst x. exact Pe. }
  rewrite map_repeat, !dot_repeat by (cbn [map length]; rewrite map_repeat, repeat_length; lia).
  cbn [map Rsum]. rewrite !map_repeat, !Rsum_repeat, Hp.
  assert (V : forall (g : law A), prob g -> mean g (fun a => (h a - p) ^ 2) = var g h + (mean g h - p) ^ 2).
  { intros g Pg. rewrite (mean_fext _ _ (fun a => 0 + (1 * h a + - p) ^ 2)) by (intros; ring). rewrite mean_square by exact Pg. ring. }
  rewrite (V d Pd), (V e Pe), Hp. rewrite minus_INR by exact Hn. cbn [INR]. field. lra.
Qed.

Section Law.
  Context {Data W : Type}.
  Variable P : law W.
  Hypothesis HP : prob P.
  Variable supp : list vec.
  Variable ip : vec -> R.
  Variable lk : vec -> law Data.
  Variable dist : Data -> xr.
  Variables (psamp qsamp : W -> vec) (lsamp : vec -> W -> Data).
  Variables (mu q : vec -> R).
  Hypothesis Hps : forall f, mean P (fun z => f (psamp z)) = Rsum (map (fun x => mu x * f x) supp).
  Hypothesis Hqs : forall f, mean P (fun z => f (qsamp z)) = Rsum (map (fun x => q x * f x) supp).
  Hypothesis Hls : forall x f, mean P (fun z => f (lsamp x z)) = mean (lk x) f.
  Hypothesis Hlk : forall x, prob (lk x).
  Notation sim := (simulation supp ip lk dist).
  Variable lw : abc_core (Data := Data) -> xr.
  Variables (n : nat) (k : key).
  Hypothesis Hn : (1 <= n)%nat.
  Notation run w := (imp_stream ip dist psamp qsamp lsamp lw n k w).
  Notation samples := (sim mu :: repeat (sim q) (n - 1)).

  Lemma total_one (samp : W -> vec) r : (forall f, mean P (fun z => f (samp z)) = Rsum (map (fun x => r x * f x) supp)) -> Rsum (map r supp) = 1.
  Proof.
    intros H. rewrite (Rsum_ext _ (fun x => r x * 1)) by (intros; lra). transitivity (mean P (fun _ => 1)); [symmetry; apply (H (fun _ => 1))|apply mean_const, HP].
  Qed.
  Lemma sims_prob : prob (sim mu) /\ prob (sim q).
  Proof. split; apply sim_prob; try assumption; eapply total_one; eassumption. Qed.

  Lemma of_cores (F : list (abc_core (Data := Data)) -> R) (G : list (isample (Data := Data)) -> R) :
    (forall l, length l = n -> G (map (fun c => ISample c (lw c)) l) = F l) ->
    has_mean P (fun w => G (run w)) (expect samples F).
  Proof.
    intros H. destruct (cores_drawn P HP supp ip lk dist psamp qsamp lsamp mu q Hps Hqs Hls lw n k Hn) as [_ D].
    exists (imp_keys n k). specialize (D F). eapply mean_on_ext; [|exact D]. intros w. cbv beta. symmetry. unfold imp_stream.
    rewrite !run_cores by exact Hn. rewrite map_map, map_id. apply H. cbn [length].
    assert (L : forall m kk, length (later (fun x (_ : key) => Fin (ip x)) (fun v k => lsamp v (w k)) dist (fun k => qsamp (w k)) kk m) = m).
    { induction m as [|m IH]; intros kk; cbn; [reflexivity|]. rewrite IH. reflexivity. }
    rewrite L. lia.
  Qed.

  Lemma average_cores phi l : length l = n ->
    weighted_average phi (map (fun c => ISample c (lw c)) l) = Rsum (map (fun c => weight (lw c) * phi (a_value c)) l) / INR n.
  Proof. intros L. unfold weighted_average. rewrite map_map, map_length, L. reflexivity. Qed.

  Lemma run_square phi p : mean (sim q) (fun c => weight (lw c) * phi (a_value c)) = p ->
    has_mean P (fun w => (weighted_average phi (run w) - p) ^ 2)
      ((mean (sim mu) (fun c => (weight (lw c) * phi (a_value c) - p) ^ 2)
        + INR (n - 1) * mean (sim q) (fun c => (weight (lw c) * phi (a_value c) - p) ^ 2)) / INR n ^ 2).
  Proof.
    intros Hp. destruct sims_prob as [Pm Pq]. rewrite <- square_first by assumption.
    apply (of_cores _ (fun r => (weighted_average phi r - p) ^ 2)). intros l L. rewrite average_cores by exact L. reflexivity.
  Qed.

  (** self-normalised averages *)
  Hypothesis Hmu0 : forall x, In x supp -> 0 <= mu x.
  Hypothesis Hq0 : forall x, In x supp -> 0 <= q x.
  Hypothesis Hlk0 : forall x dp, In dp (lk x) -> 0 <= snd dp.
  Lemma sim_nonneg r : (forall x, In x supp -> 0 <= r x) -> nonneg (sim r).
  Proof.
    intros H c Hc. unfold simulation in Hc. apply in_flat_map in Hc. destruct Hc as (x & Hx & Hc). apply in_map_iff in Hc.
    destruct Hc as (dp & <- & Hd). cbn [snd]. apply Rmult_le_pos; [apply H, Hx|apply (Hlk0 x), Hd].
  Qed.
  Lemma sim_support r c : In c (map fst (sim r)) -> In (a_value c) supp /\ a_prior c = Fin (ip (a_value c)).
  Proof.
    intros H. apply in_map_iff in H. destruct H as ([c' p] & <- & H). unfold simulation in H. apply in_flat_map in H.
    destruct H as (x & Hx & H). apply in_map_iff in H. destruct H as (dp & E & _). injection E as <- _. cbn. auto.
  Qed.

  Lemma weight_nonneg x : 0 <= weight x.
  Proof. destruct x; cbn; try apply Rlt_le, exp_pos; lra. Qed.
  Lemma ratio_bound phi B (l : list (abc_core (Data := Data))) : 0 <= B -> List.Forall (fun c => Rabs (phi (a_value c)) <= B) l ->
    let A := Rsum (map (fun c => weight (lw c) * phi (a_value c)) l) in let Z := Rsum (map (fun c => weight (lw c) * 1) l) in
    0 <= Z /\ Rabs A <= B * Z.
  Proof.
    intros HB F. induction F as [|c l H F IH]; cbn; [rewrite Rabs_R0; lra|]. cbn in IH. destruct IH as [I1 I2].
    pose proof (weight_nonneg (lw c)). split; [lra|]. eapply Rle_trans; [apply Rabs_triang|].
    rewrite Rabs_mult, (Rabs_right (weight _)) by lra. pose proof (Rmult_le_compat_l _ _ _ H0 H). lra.
  Qed.

  Lemma run_ratio phi B a z v1 v2 : 0 < z -> 0 <= B -> (forall x, In x supp -> Rabs (phi x) <= B) ->
    mean (sim q) (fun c => weight (lw c) * phi (a_value c)) = a -> mean (sim q) (fun c => weight (lw c) * 1) = z ->
    has_mean P (fun w => (weighted_average phi (run w) - a) ^ 2) v1 ->
    has_mean P (fun w => (weighted_average (fun _ => 1) (run w) - z) ^ 2) v2 ->
    exists v, has_mean P (fun w => (normalised_average phi (run w) - a / z) ^ 2) v /\ v <= 2 * (v1 + B ^ 2 * v2) / z ^ 2.
  Proof.
    intros Hz HB Hphi Ha Hz' H1 H2. destruct sims_prob as [Pm Pq]. assert (N : 0 < INR n) by (apply lt_0_INR; lia).
    set (A := fun l : list (abc_core (Data := Data)) => Rsum (map (fun c => weight (lw c) * phi (a_value c)) l)).
    set (Z := fun l : list (abc_core (Data := Data)) => Rsum (map (fun c => weight (lw c) * 1) l)).
    assert (U : forall F u v, has_mean P F u -> has_mean P F v -> u = v).
    { intros F u v [k1 Q1] [k2 Q2].
      assert (z0 : W) by (destruct P as [|[w p] ?]; [unfold prob in HP; cbn in HP; lra|exact w]).
      rewrite <- (Q1 (nodup key_eq_dec (k1 ++ k2)) (fun _ => z0)), <- (Q2 (nodup key_eq_dec (k1 ++ k2)) (fun _ => z0)); try reflexivity; try apply NoDup_nodup;
        intros x Hx; apply nodup_In, in_or_app; auto. }
    assert (E1 : v1 = expect samples (fun l => (A l / INR n - a) ^ 2)).
    { eapply U; [exact H1|]. apply (of_cores _ (fun r => (weighted_average phi r - a) ^ 2)). intros l L. rewrite average_cores by exact L. reflexivity. }
    assert (E2 : v2 = expect samples (fun l => (Z l / INR n - z) ^ 2)).
    { eapply U; [exact H2|]. apply (of_cores _ (fun r => (weighted_average (fun _ => 1) r - z) ^ 2)). intros l L. rewrite average_cores by exact L. reflexivity. }
    exists (expect samples (fun l => (A l / Z l - a / z) ^ 2)). split.
    - apply (of_cores _ (fun r => (normalised_average phi r - a / z) ^ 2)). intros l L. unfold normalised_average. rewrite !map_map. cbn [i_lw i_core]. unfold A, Z.
      rewrite (Rsum_ext (fun c => weight (lw c) * 1) (fun c => weight (lw c))) by (intros; lra). reflexivity.
    - eapply Rle_trans.
      + apply (expect_mono samples _ (fun l => 2 / z ^ 2 * (A l / INR n - a) ^ 2 + 2 * B ^ 2 / z ^ 2 * (Z l / INR n - z) ^ 2)).
        { constructor; [apply sim_nonneg, Hmu0|]. apply Forall_forall. intros d Hd. apply repeat_spec in Hd. subst d. apply sim_nonneg, Hq0. }
        intros l Hl.
        assert (Fl : List.Forall (fun c => Rabs (phi (a_value c)) <= B) l).
        { assert (G : forall ds, (forall d, In d ds -> d = sim mu \/ d = sim q) -> forall l, List.Forall2 (fun a d => In a (map fst d)) l ds ->
            List.Forall (fun c => Rabs (phi (a_value c)) <= B) l).
          { intros ds Hd l' H'. induction H' as [|c d l' ds Hc H' IH]; constructor.
            - apply Hphi. destruct (Hd d ltac:(left; reflexivity)) as [-> | ->]; apply sim_support in Hc; apply Hc.
            - apply IH. intros; apply Hd; right; assumption. }
          apply (G samples); [|exact Hl]. intros d [<-|Hd]; [left; reflexivity|right; apply repeat_spec in Hd; exact Hd]. }
        destruct (ratio_bound phi B l HB Fl) as [Zp Ab]. fold (A l) (Z l) in Zp, Ab. clear Fl Hl.
        generalize dependent (A l). generalize dependent (Z l). intros Zl Zp Al Ab.
        assert (K : exists r, Al / Zl = r /\ r * Zl = Al /\ r ^ 2 <= B ^ 2).
        { destruct (Req_dec Zl 0) as [->|Nz].
          - assert (Al = 0). { rewrite Rmult_0_r in Ab. destruct (Req_dec Al 0) as [|C]; [assumption|]. pose proof (Rabs_pos_lt _ C). lra. }
            subst Al. exists 0. split; [unfold Rdiv; ring|]. split; [ring|]. pose proof (pow2_ge_0 B). lra.
          - exists (Al / Zl). split; [reflexivity|]. split; [field; exact Nz|]. apply pow_maj_Rabs. unfold Rdiv. rewrite Rabs_mult, Rabs_inv, (Rabs_right Zl) by lra.
            apply (Rmult_le_reg_r Zl); [lra|]. rewrite Rmult_assoc, Rinv_l, Rmult_1_r by exact Nz. exact Ab. }
        destruct K as (r & -> & <- & Hr).
        replace (r - a / z) with (/ z * ((r * Zl / INR n - a) - r * (Zl / INR n - z))) by (field; lra).
        rewrite Rpow_mult_distr.
        replace (2 / z ^ 2 * (r * Zl / INR n - a) ^ 2 + 2 * B ^ 2 / z ^ 2 * (Zl / INR n - z) ^ 2)
          with ((/ z) ^ 2 * (2 * (r * Zl / INR n - a) ^ 2 + 2 * B ^ 2 * (Zl / INR n - z) ^ 2)) by (field; lra).
        apply Rmult_le_compat_l; [apply pow2_ge_0|].
        set (u := r * Zl / INR n - a). set (v := Zl / INR n - z). pose proof (pow2_ge_0 (u + r * v)). pose proof (pow2_ge_0 v). nra.
      + rewrite expect_plus, !expect_scale, <- E1, <- E2. right. field. lra.
  Qed.
End Law.
