(** C125: the squared errors of the estimates of importance-sampling ABC. *)
From Coq Require Import Reals List Bool Arith Lia Lra.
From Verif Require Import XR Keys LoopModel LoopProofs WeightsSpec McmcSpec McmcModel AbcModel UnbSpec UnbProofs
  KexpSpec KexpProofs RejLawProofs BackLawProofs BackLawProps PfProofs PfVarProofs ImpModel ImpSpec ImpProofs ImpProps ImpVarSpec ImpVarProofs.
Import ListNotations.
Open Scope R_scope.

Lemma vanilla_deviation {Data} supp ip (lk : vec -> law Data) dist thr phi p : (forall x, prob (lk x)) -> Rsum (map (fun x => exp (- ip x)) supp) = 1 ->
  abc_posterior supp ip lk dist thr phi = p ->
  mean (simulation supp ip lk dist (fun x => exp (- ip x))) (fun c => (weight (vanilla_log_weight thr c) * phi (a_value c) - p) ^ 2)
  = abc_posterior supp ip lk dist thr (fun x => phi x ^ 2) - p ^ 2.
Proof.
  intros Hlk H1 Hp.
  assert (Pp : prob (simulation supp ip lk dist (fun x => exp (- ip x)))) by (apply sim_prob; assumption).
  rewrite (mean_fext _ _ (fun c => p ^ 2 + (weight (vanilla_log_weight thr c) * phi (a_value c) ^ 2 + (- 2 * p) * (weight (vanilla_log_weight thr c) * phi (a_value c))))).
  - rewrite mean_plus, mean_const by exact Pp. rewrite mean_plus, PfVarProofs.mean_scal, vanilla_one, Hp.
    rewrite (vanilla_one supp ip lk dist thr (fun x => phi x ^ 2)). ring.
  - intros c. unfold vanilla_log_weight. destruct (xltb _ _); cbn [weight]; rewrite ?exp_0; ring.
Qed.

(** Rejection ABC, any number [n] of samples: the expected squared error of the
    weighted average of [phi] is the posterior mass of [phi^2] less the square of
    that of [phi], over [n]. *)
Theorem C125_rejection :
  forall (Data W : Type) (P : law W) (supp : list vec) (ip : vec -> R) (lk : vec -> law Data) (dist : Data -> xr)
         (psamp : W -> vec) (lsamp : vec -> W -> Data) thr n k phi,
  prob P -> (forall x, prob (lk x)) -> (1 <= n)%nat ->
  (forall f, mean P (fun z => f (psamp z)) = Rsum (map (fun x => exp (- ip x) * f x) supp)) ->
  (forall x f, mean P (fun z => f (lsamp x z)) = mean (lk x) f) ->
  let post := abc_posterior supp ip lk dist thr in
  has_mean P (fun w => (weighted_average phi (vanilla_stream ip dist psamp lsamp thr n k w) - post phi) ^ 2)
    ((post (fun x => phi x ^ 2) - post phi ^ 2) / INR n).
Proof.
  intros Data W P supp ip lk dist psamp lsamp thr n k phi HP Hlk Hn Hp Hl post.
  assert (H1 : Rsum (map (fun x => exp (- ip x)) supp) = 1) by (eapply total_one; eassumption).
  assert (N : 0 < INR n) by (apply lt_0_INR; lia).
  eapply has_mean_to; [| |apply (run_square P HP supp ip lk dist psamp psamp lsamp _ _ Hp Hp Hl Hlk (vanilla_log_weight thr) n k Hn phi (post phi))].
  - intros w. rewrite vanilla_is_imp. reflexivity.
  - cbv beta. rewrite vanilla_deviation by (assumption || reflexivity). fold post. rewrite minus_INR by exact Hn. cbn [INR]. field. lra.
  - apply vanilla_one.
Qed.
Print Assumptions C125_rejection.

Lemma posterior_mono {Data} supp ip (lk : vec -> law Data) dist thr f g : (forall x dp, In dp (lk x) -> 0 <= snd dp) ->
  (forall x, In x supp -> f x <= g x) -> abc_posterior supp ip lk dist thr f <= abc_posterior supp ip lk dist thr g.
Proof.
  intros H0 H. unfold abc_posterior. induction supp as [|x l IH]; [cbn; lra|]. cbn [map Rsum]. apply Rplus_le_compat.
  - apply Rmult_le_compat_l; [|apply H; left; reflexivity]. apply Rmult_le_pos; [apply Rlt_le, exp_pos|].
    unfold within, mean. specialize (H0 x). clear -H0. induction (lk x) as [|dp m IH]; cbn; [lra|].
    assert (0 <= snd dp) by (apply H0; left; reflexivity). specialize (IH ltac:(intros; apply H0; right; assumption)).
    destruct (xltb _ _); nra.
  - apply IH. intros; apply H; right; assumption.
Qed.

(** Accepted samples: the average of [phi] over the samples within the threshold
    has expected squared error at most four times the squared bound of [phi] over
    acceptance probability times number of samples. *)
Theorem C125_accepted :
  forall (Data W : Type) (P : law W) (supp : list vec) (ip : vec -> R) (lk : vec -> law Data) (dist : Data -> xr)
         (psamp : W -> vec) (lsamp : vec -> W -> Data) thr n k phi B,
  prob P -> (forall x, prob (lk x)) -> (forall x dp, In dp (lk x) -> 0 <= snd dp) -> (1 <= n)%nat ->
  (forall f, mean P (fun z => f (psamp z)) = Rsum (map (fun x => exp (- ip x) * f x) supp)) ->
  (forall x f, mean P (fun z => f (lsamp x z)) = mean (lk x) f) ->
  let post := abc_posterior supp ip lk dist thr in
  let z := post (fun _ => 1) in
  0 < z -> 0 <= B -> (forall x, In x supp -> Rabs (phi x) <= B) ->
  exists v, has_mean P (fun w => (normalised_average phi (vanilla_stream ip dist psamp lsamp thr n k w) - post phi / z) ^ 2) v
    /\ v <= 4 * B ^ 2 / (z * INR n).
Proof.
  intros Data W P supp ip lk dist psamp lsamp thr n k phi B HP Hlk Hlk0 Hn Hp Hl post z Hz HB Hphi.
  assert (N : 0 < INR n) by (apply lt_0_INR; lia).
  pose proof (C125_rejection Data W P supp ip lk dist psamp lsamp thr n k phi HP Hlk Hn Hp Hl) as V1.
  pose proof (C125_rejection Data W P supp ip lk dist psamp lsamp thr n k (fun _ => 1) HP Hlk Hn Hp Hl) as V2.
  cbv zeta in V1, V2. fold post in V1, V2. fold z in V2.
  destruct (run_ratio P HP supp ip lk dist psamp psamp lsamp _ _ Hp Hp Hl Hlk (vanilla_log_weight thr) n k Hn
    (fun x _ => Rlt_le _ _ (exp_pos _)) (fun x _ => Rlt_le _ _ (exp_pos _)) Hlk0 phi B (post phi) z _ _ Hz HB Hphi
    (vanilla_one _ _ _ _ _ _) (vanilla_one _ _ _ _ _ _) V1 V2) as (v & Hv & Hb).
  exists v. split; [exact Hv|]. eapply Rle_trans; [exact Hb|].
  assert (Q : post (fun x => phi x ^ 2) <= B ^ 2 * z).
  { eapply Rle_trans; [apply (posterior_mono supp ip lk dist thr _ (fun _ => B ^ 2)); [exact Hlk0|intros x Hx; apply pow_maj_Rabs, Hphi, Hx]|].
    right. unfold z, post, abc_posterior. rewrite <- Rsum_scal. apply Rsum_ext. intros; ring. }
  assert (Q1 : post (fun _ => 1 ^ 2) = z) by (unfold z; f_equal; rewrite pow1; reflexivity).
  replace (4 * B ^ 2 / (z * INR n)) with (2 * (B ^ 2 * z / INR n + B ^ 2 * (z / INR n)) / z ^ 2) by (field; lra).
  assert (I : 0 < / INR n) by (apply Rinv_0_lt_compat, N). assert (Iz : 0 < / z ^ 2) by (apply Rinv_0_lt_compat, pow_lt, Hz).
  unfold Rdiv. apply Rmult_le_compat_r; [lra|]. apply Rmult_le_compat_l; [lra|]. apply Rplus_le_compat.
  - apply Rmult_le_compat_r; [lra|]. pose proof (pow2_ge_0 (post phi)). lra.
  - apply Rmult_le_compat_l; [apply pow2_ge_0|]. apply Rmult_le_compat_r; [lra|]. rewrite Q1. pose proof (pow2_ge_0 z). lra.
Qed.
Print Assumptions C125_accepted.

Lemma imp_deviation {Data} supp ip jp (lk : vec -> law Data) dist thr phi p r :
  mean (simulation supp ip lk dist r) (fun c => (weight (imp_log_weight (fun x => Fin (jp x)) thr c) * phi (a_value c) - p) ^ 2)
  = spread supp lk dist (fun x => exp (jp x - ip x)) thr phi p r.
Proof.
  rewrite mean_simulation. unfold spread. apply Rsum_ext. intros x _. f_equal. apply mean_fext. intros d.
  unfold imp_log_weight. cbn [a_dist a_value a_prior]. destruct (xltb _ thr); cbn [weight xadd xopp]; [|reflexivity].
  replace (- ip x + jp x) with (jp x - ip x) by ring. reflexivity.
Qed.

(** Any proposal, with the first value from the prior but weighted as if it came
    from the proposal: the expected squared error of the weighted average is the
    deviation of that first sample plus [n - 1] times that of a sample from the
    proposal, over [n^2].  With weights at most [b] and [phi] at most [B] it is
    at most [(2 b B)^2 / n], and that of the self-normalised average at most
    [(4 b B / z)^2 / n]. *)
Theorem C125_importance :
  forall (Data W : Type) (P : law W) (supp : list vec) (ip jp : vec -> R) (lk : vec -> law Data) (dist : Data -> xr)
         (psamp qsamp : W -> vec) (lsamp : vec -> W -> Data) thr n k phi b B,
  prob P -> (forall x, prob (lk x)) -> (forall x dp, In dp (lk x) -> 0 <= snd dp) -> (1 <= n)%nat ->
  (forall f, mean P (fun z => f (psamp z)) = Rsum (map (fun x => exp (- ip x) * f x) supp)) ->
  (forall f, mean P (fun z => f (qsamp z)) = Rsum (map (fun x => exp (- jp x) * f x) supp)) ->
  (forall x f, mean P (fun z => f (lsamp x z)) = mean (lk x) f) ->
  let run := imp_stream ip dist psamp qsamp lsamp (imp_log_weight (fun x => Fin (jp x)) thr) n k in
  let post := abc_posterior supp ip lk dist thr in
  let z := post (fun _ => 1) in
  let deviation := spread supp lk dist (fun x => exp (jp x - ip x)) thr phi (post phi) in
  let error := (deviation (fun x => exp (- ip x)) + INR (n - 1) * deviation (fun x => exp (- jp x))) / INR n ^ 2 in
  has_mean P (fun w => (weighted_average phi (run w) - post phi) ^ 2) error
  /\ ((forall x, In x supp -> exp (jp x - ip x) <= b) -> (forall x, In x supp -> Rabs (phi x) <= B) ->
      error <= (2 * b * B) ^ 2 / INR n
      /\ (0 < z -> exists v, has_mean P (fun w => (normalised_average phi (run w) - post phi / z) ^ 2) v /\ v <= (4 * b * B / z) ^ 2 / INR n)).
Proof.
  intros Data W P supp ip jp lk dist psamp qsamp lsamp thr n k phi b B HP Hlk Hlk0 Hn Hp Hq Hl run post z deviation error.
  assert (N : 0 < INR n) by (apply lt_0_INR; lia).
  assert (T1 : Rsum (map (fun x => exp (- ip x)) supp) = 1) by (eapply total_one; eassumption).
  assert (T2 : Rsum (map (fun x => exp (- jp x)) supp) = 1) by (eapply total_one; eassumption).
  set (lw := imp_log_weight (Data := Data) (fun x => Fin (jp x)) thr).
  assert (S : forall f, has_mean P (fun w => (weighted_average f (run w) - post f) ^ 2)
    ((spread supp lk dist (fun x => exp (jp x - ip x)) thr f (post f) (fun x => exp (- ip x))
      + INR (n - 1) * spread supp lk dist (fun x => exp (jp x - ip x)) thr f (post f) (fun x => exp (- jp x))) / INR n ^ 2)).
  { intros f. pose proof (run_square P HP supp ip lk dist psamp qsamp lsamp _ _ Hp Hq Hl Hlk lw n k Hn f (post f) (imp_one _ _ _ _ _ _ _)) as H.
    unfold lw in H. rewrite !imp_deviation in H. exact H. }
  split; [apply S|]. intros Hb HB.
  assert (Inx : exists x, In x supp) by (destruct supp as [|x ?]; [cbn in T1; lra|exists x; left; reflexivity]). destruct Inx as [x1 Hx1].
  assert (b0 : 0 <= b) by (pose proof (Hb x1 Hx1); pose proof (exp_pos (jp x1 - ip x1)); lra).
  assert (B0 : 0 <= B) by (pose proof (HB x1 Hx1); pose proof (Rabs_pos (phi x1)); lra).
  assert (D : forall f C, 0 <= C -> (forall x, In x supp -> Rabs (f x) <= C) ->
    (spread supp lk dist (fun x => exp (jp x - ip x)) thr f (post f) (fun x => exp (- ip x))
      + INR (n - 1) * spread supp lk dist (fun x => exp (jp x - ip x)) thr f (post f) (fun x => exp (- jp x))) / INR n ^ 2 <= (2 * b * C) ^ 2 / INR n).
  { intros f C C0 HC. rewrite <- !imp_deviation. fold lw.
    assert (Hs : forall r c, In c (map fst (simulation supp ip lk dist r)) -> Rabs (weight (lw c) * f (a_value c)) <= b * C).
    { intros r c Hc. apply sim_support in Hc. destruct Hc as [Hc Hpr]. unfold lw, imp_log_weight. rewrite Hpr.
      rewrite Rabs_mult. destruct (xltb _ thr); cbn [weight xadd xopp].
      - rewrite (Rabs_right (exp _)) by (apply Rle_ge, Rlt_le, exp_pos). apply Rmult_le_compat; [apply Rlt_le, exp_pos|apply Rabs_pos| |apply HC, Hc].
        replace (- ip (a_value c) + jp (a_value c)) with (jp (a_value c) - ip (a_value c)) by ring. apply Hb, Hc.
      - rewrite Rabs_R0, Rmult_0_l. apply Rmult_le_pos; assumption. }
    assert (Pj : prob (simulation supp ip lk dist (fun x => exp (- jp x)))) by (apply sim_prob; assumption).
    assert (Nr : forall r, (forall x, 0 <= r x) -> nonneg (simulation supp ip lk dist r)) by (intros r Hr; apply sim_nonneg; [exact Hlk0|intros; apply Hr]).
    assert (Bp : Rabs (post f) <= b * C).
    { unfold post. rewrite <- (imp_one supp ip lk dist jp thr f). fold lw. apply (mean_bound _ _ (b * C) Pj); [apply Nr; intros; apply Rlt_le, exp_pos|apply Hs]. }
    assert (Dv : forall r, (forall x, 0 <= r x) -> Rsum (map r supp) = 1 ->
      mean (simulation supp ip lk dist r) (fun c => (weight (lw c) * f (a_value c) - post f) ^ 2) <= (2 * b * C) ^ 2).
    { intros r Hr Tr. apply (mean_bound _ (fun c => weight (lw c) * f (a_value c) - post f)); [apply sim_prob; assumption|apply Nr, Hr|].
      intros c Hc. eapply Rle_trans; [apply Rabs_triang|]. rewrite Rabs_Ropp. specialize (Hs r c Hc). lra. }
    pose proof (Dv _ (fun x => Rlt_le _ _ (exp_pos (- ip x))) T1) as D1. pose proof (Dv _ (fun x => Rlt_le _ _ (exp_pos (- jp x))) T2) as D2.
    set (u := mean _ _) in *. set (v := mean _ _) in *. replace ((2 * b * C) ^ 2 / INR n) with ((INR n * (2 * b * C) ^ 2) / INR n ^ 2) by (field; lra).
    unfold Rdiv. apply Rmult_le_compat_r; [apply Rlt_le, Rinv_0_lt_compat, pow_lt, N|]. rewrite minus_INR by exact Hn. cbn [INR].
    assert (1 <= INR n) by (change 1 with (INR 1); apply le_INR, Hn). nra. }
  split; [apply D; assumption|]. intros Hz.
  destruct (run_ratio P HP supp ip lk dist psamp qsamp lsamp _ _ Hp Hq Hl Hlk lw n k Hn
    (fun x _ => Rlt_le _ _ (exp_pos _)) (fun x _ => Rlt_le _ _ (exp_pos _)) Hlk0 phi B (post phi) z _ _ Hz B0 HB
    (imp_one _ _ _ _ _ _ _) (imp_one _ _ _ _ _ _ _) (S phi) (S (fun _ => 1))) as (v & Hv & Hvb).
  exists v. split; [exact Hv|]. eapply Rle_trans; [exact Hvb|].
  pose proof (D phi B B0 HB) as D1. pose proof (D (fun _ => 1) 1 Rle_0_1 (fun _ _ => Req_le _ _ Rabs_R1)) as D2.
  set (u := (spread _ _ _ _ _ phi _ _ + _) / _) in *. set (t := (spread _ _ _ _ _ _ _ _ + _) / _) in *.
  replace ((4 * b * B / z) ^ 2 / INR n) with (2 * ((2 * b * B) ^ 2 / INR n + B ^ 2 * ((2 * b * 1) ^ 2 / INR n)) / z ^ 2) by (field; lra).
  unfold Rdiv at 1 3. apply Rmult_le_compat_r; [apply Rlt_le, Rinv_0_lt_compat, pow_lt, Hz|]. apply Rmult_le_compat_l; [lra|].
  apply Rplus_le_compat; [exact D1|]. apply Rmult_le_compat_l; [apply pow2_ge_0|exact D2].
Qed.
Print Assumptions C125_importance.

(** The setting of C113's example: exact squared error of the weighted average,
    and of the average over the accepted samples. *)
Example C125_rejection_example : forall n k, (1 <= n)%nat ->
  has_mean six (fun w => (weighted_average (fun v => v 0%nat) (vanilla_stream third_pot coin_dist third coin_data (Fin (/ 2)) n k w) - 5 / 9) ^ 2) (20 / (81 * INR n))
  /\ exists v, has_mean six (fun w => (normalised_average (fun v => v 0%nat) (vanilla_stream third_pot coin_dist third coin_data (Fin (/ 2)) n k w) - 10 / 13) ^ 2) v
     /\ v <= 72 / (13 * INR n).
Proof.
  intros n k Hn. assert (N : 0 < INR n) by (apply lt_0_INR; lia).
  set (lk := fun x => map (fun ip => (coin_data x (fst ip), snd ip)) six).
  assert (Pl : forall x, prob (lk x)) by (intros x; unfold prob, lk; rewrite map_map; exact six_prob1).
  assert (Ll : forall x f, mean six (fun z => f (coin_data x z)) = mean (lk x) f) by (intros x f; unfold mean, lk; rewrite map_map; reflexivity).
  assert (X1 : xltb (Fin 0) (Fin (/ 2)) = true) by (apply Rltb_true; lra).
  assert (X2 : xltb (Fin 1) (Fin (/ 2)) = false) by (apply Rltb_false; lra).
  assert (V : forall phi, abc_posterior two_points third_pot lk coin_dist (Fin (/ 2)) phi = / 6 * phi (fun _ => 0) + 5 / 9 * phi (fun _ => 1)).
  { intros phi. unfold abc_posterior, within, two_points, lk. cbn [map Rsum]. rewrite !third_exp, low_0, low_1.
    unfold coin_data. rewrite low_0, low_1. unfold mean, six. cbn [map seq fst snd Nat.ltb Nat.leb coin_dist Rsum]. rewrite X1, X2. field. }
  split.
  - eapply has_mean_to; [| |apply (C125_rejection bool nat six two_points third_pot lk coin_dist third coin_data (Fin (/ 2)) n k (fun v => v 0%nat) six_prob1 Pl Hn third_law Ll)].
    + intros w. cbv beta. rewrite V. f_equal. field.
    + cbv beta. rewrite !V. field. lra.
  - destruct (C125_accepted bool nat six two_points third_pot lk coin_dist third coin_data (Fin (/ 2)) n k (fun v => v 0%nat) 1 six_prob1 Pl) as (v & Hv & Hb).
    + intros x dp H. unfold lk in H. apply in_map_iff in H. destruct H as (ap & <- & H). cbn [snd].
      unfold six in H. repeat (destruct H as [<-|H]; [cbn; lra|]). destruct H.
    + exact Hn.
    + exact third_law.
    + exact Ll.
    + rewrite V. lra.
    + lra.
    + intros x [<-|[<-|[]]]; [rewrite Rabs_R0|rewrite Rabs_R1]; lra.
    + exists v. rewrite !V in Hb. split.
      * eapply has_mean_to; [|reflexivity|exact Hv]. intros w. cbv beta. rewrite !V. f_equal. field.
      * eapply Rle_trans; [exact Hb|]. right. field. lra.
Qed.

(** The setting in which the first sample biases the average: squared errors. *)
Example C125_importance_example : forall n k, (1 <= n)%nat ->
  let run := imp_stream third_pot (fun _ : unit => Fin 0) third half (fun _ _ => tt) (imp_log_weight (fun _ => Fin (ln 2)) PInf) n k in
  has_mean six (fun w => (weighted_average (fun _ => 1) (run w) - 1) ^ 2) (/ (9 * INR n))
  /\ exists v, has_mean six (fun w => (normalised_average (fun v => v 0%nat) (run w) - 2 / 3) ^ 2) v /\ v <= (16 / 3) ^ 2 / INR n.
Proof.
  intros n k Hn run. assert (N : 0 < INR n) by (apply lt_0_INR; lia).
  assert (Pl : forall x : vec, prob [(tt, 1)]) by (intros; unfold prob; cbn; lra).
  assert (Hl : forall (x : vec) (f : unit -> R), mean six (fun z => f tt) = mean [(tt, 1)] f).
  { intros x f. rewrite mean_const by exact six_prob1. unfold mean. cbn. ring. }
  assert (L0 : forall (x : vec) dp, In dp [(tt, 1)] -> 0 <= snd dp) by (intros x dp [<-|[]]; cbn; lra).
  assert (V : forall phi, abc_posterior two_points third_pot (fun _ => [(tt, 1)]) (fun _ => Fin 0) PInf phi = / 3 * phi (fun _ => 0) + 2 / 3 * phi (fun _ => 1)).
  { intros phi. unfold abc_posterior, within, two_points, mean. cbn [map Rsum fst snd xltb]. rewrite !third_exp, low_0, low_1. field. }
  assert (R : forall x, exp (ln 2 - third_pot x) = if low x then 2 / 3 else 4 / 3).
  { intros x. unfold Rminus. rewrite exp_plus, third_exp, exp_ln by lra. destruct (low x); field. }
  split.
  - destruct (C125_importance unit nat six two_points third_pot (fun _ => ln 2) (fun _ => [(tt, 1)]) (fun _ => Fin 0) third half (fun _ _ => tt) PInf n k (fun _ => 1) 1 1
      six_prob1 Pl L0 Hn third_law half_law Hl) as [H _].
    cbv zeta in H. eapply has_mean_to; [| |exact H].
    + intros w. cbv beta. rewrite V. unfold run. f_equal. field.
    + rewrite V. unfold spread, two_points, mean. cbn [map Rsum fst snd xltb]. rewrite !third_exp, !R, low_0, low_1, !exp_Ropp, !exp_ln by lra.
      rewrite minus_INR by exact Hn. cbn [INR]. field. lra.
  - destruct (C125_importance unit nat six two_points third_pot (fun _ => ln 2) (fun _ => [(tt, 1)]) (fun _ => Fin 0) third half (fun _ _ => tt) PInf n k (fun v => v 0%nat) (4 / 3) 1
      six_prob1 Pl L0 Hn third_law half_law Hl) as [_ H].
    destruct H as [_ H].
    + intros x _. rewrite R. destruct (low x); lra.
    + intros x [<-|[<-|[]]]; [rewrite Rabs_R0|rewrite Rabs_R1]; lra.
    + destruct H as (v & Hv & Hb); [rewrite V; lra|]. exists v. cbv zeta in Hv, Hb. rewrite !V in Hb. split.
      * eapply has_mean_to; [|reflexivity|exact Hv]. intros w. cbv beta. rewrite !V. unfold run. f_equal. field.
      * eapply Rle_trans; [exact Hb|]. right. field. lra.
Qed.
