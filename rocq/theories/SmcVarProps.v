(** C123: the squared error of the estimates of a tempered SMC run is at most a
    constant over the number of particles. *)
From Coq Require Import Reals List Arith Bool Lia Lra FunctionalExtensionality.
From Verif Require Import XR Keys McmcModel McmcSpec HmcModel WeightsModel WeightsSpec WeightsProofs SmcModel SmcSpec SmcProofs SmcProps
  UnbSpec UnbProofs UnbProps KexpSpec KexpProofs ChainSpec ChainProofs HmcLawSpec FilterModel FilterSpec BackModel BackLawSpec BackLawProofs BackLawProps
  OnlineLawProps SmcLawModel SmcLawSpec SmcMoveProofs SmcLawProofs SmcLawProps SmcUdModel SmcUdSpec SmcUdProofs SmcUdProps SmcVarProofs.
Import ListNotations.
Open Scope R_scope.

(** The mass of [phi] under the tempered density relative to that of the prior. *)
Definition mass (fp fl : vec -> R) (supp : list vec) (t : R) (phi : vec -> R) : R :=
  Rsum (map (fun x => exp (- fp x - t * fl x) * phi x) supp) / Rsum (map (fun x => exp (- fp x)) supp).
(** The recorded constant of an ensemble and its weighted average of [phi]. *)
Definition constant (E : ensemble) : R := exp (rval (p_lnc (first E))).
Definition average (phi : vec -> R) (E : ensemble) : R := weighted_mean (weights (map p_lw E)) (map (fun p => phi (p_value p)) E).
(** At most [c] in expectation, over all random streams. *)
Definition at_most {W} (P : law W) (F : (key -> W) -> R) (c : R) : Prop := exists v, has_mean P F v /\ v <= c.

Lemma mass_ratio fp fl supp t phi : ratio fp fl supp t phi = mass fp fl supp t phi.
Proof. unfold ratio, mass, gsum, gam. f_equal. apply Rsum_ext. intros x _. rewrite Rmult_1_r. f_equal. ring. Qed.
Lemma schedule_inc l : (forall j, (S j < length l)%nat -> nth j l 0 <= nth (S j) l 0) -> forall j, nth j l (last l 0) <= nth (S j) l (last l 0).
Proof.
  intros H j. destruct (Nat.lt_ge_cases (S j) (length l)) as [C|C].
  - rewrite !(nth_indep l (last l 0) 0) by lia. apply H, C.
  - rewrite (nth_overflow l (last l 0) C). destruct (Nat.lt_ge_cases j (length l)) as [D|D].
    + right. assert (Ne : l <> []) by (intros ->; cbn in D; lia). rewrite (app_removelast_last 0 Ne) at 1.
      assert (L : length (removelast l) = j).
      { pose proof (f_equal (@length R) (app_removelast_last 0 Ne)) as E. rewrite app_length in E. cbn in E. lia. }
      rewrite app_nth2 by lia. rewrite L, Nat.sub_diag. reflexivity.
    + rewrite nth_overflow by exact D. lra.
Qed.

(** With RandomWalk and Metropolis as inner sampler: for a nondecreasing schedule,
    a likelihood potential at least [-m] on the support and a function [phi]
    bounded by [B], the recorded constant times the weighted average has squared
    error at most [c], and the weighted average itself at most [4 c / rho^2],
    where [rho] is the ratio of normalising constants.  [c] is inversely
    proportional to the number of particles [n]. *)
Theorem C123_random_walk :
  forall (W : Type) (P : law W) (unif : W -> R) (nrm : W -> nat -> R) (psamp : W -> vec) (cat : W -> list xr -> nat -> list nat)
         (fp fl : vec -> R) (pr : vec -> xr) (supp : list vec) (gprior glik : vec -> key -> vec)
         (l : list R) (thr st : R) (steps n : nat) (m : R),
  prob P -> (forall xp, In xp P -> 0 <= snd xp) ->
  (forall x, In x supp -> pr x = Fin (fp x)) -> (forall x, ~ In x supp -> pr x = PInf) -> NoDup supp -> supp <> [] ->
  (forall x, In x supp -> - m <= fl x) ->
  l <> [] -> List.Forall (fun t => 0 < t) l -> (forall j, (j < length l - 1)%nat -> nth j l 0 < last l 0) ->
  (forall j, (S j < length l)%nat -> nth j l 0 <= nth (S j) l 0) -> 0 < thr -> (0 < n)%nat ->
  (* the draws *)
  (forall x, 0 <= unif x < 1) -> symmetric_steps P nrm ->
  (forall j x y, (j < length l - 1)%nat -> In x supp -> In y supp ->
     uniform_ok P unif (accept (Fin (fp x + nth j l 0 * fl x)) (Fin (fp y + nth j l 0 * fl y)))) ->
  (forall x, categorical_ok (fun _ => cat x)) ->
  (forall E e, reached fp fl supp gprior glik l thr n (E, e) -> (s_iter e < length l - 1)%nat ->
     resample_criterion thr E = true -> multinomial P cat E) ->
  (forall phi, mean P (fun x => phi (psamp x)) = mean (prior_law fp fl supp) phi) -> (forall x, In (psamp x) supp) ->
  forall (k : key) (J : nat) (phi : vec -> R) (B : R), (J < length l)%nat ->
  0 <= B -> (forall x, In x supp -> Rabs (phi x) <= B) ->
  let E := fun w => nth J (smc_sampled (fun k => psamp (w k)) (fun v _ => pr v) (fun v _ => Fin (fl v)) gprior glik
                             (fun k => cat (w k)) (fun k => nrm (w k)) (fun k => unif (w k)) steps l thr n k st) [] in
  let r := mass fp fl supp (nth J l 0) phi in
  let rho := mass fp fl supp (nth J l 0) (fun _ => 1) in
  let c := INR (S J) * (exp (m * nth J l 0) * B)^2 / (Rmin 1 thr * INR n) in
  at_most P (fun w => (constant (E w) * average phi (E w) - r)^2) c
  /\ at_most P (fun w => (average phi (E w) - r / rho)^2) (4 * c / rho^2).
Proof.
  intros W P unif nrm psamp cat fp fl pr supp gp gl l thr st steps n m HP HP0 Hin Hout HN Hne Hfl Hl Hpos Hinc Hnd Hthr Hn Hu Hs Huo Hc Hm Hps Hpi k J phi B HJ HB Hphi.
  pose proof (schedule_pos l Hl Hpos) as Tp. pose proof (schedule_inc l Hnd) as Ti.
  assert (Huo' : forall j x y, (j < length l - 1)%nat -> In x supp -> In y supp ->
     uniform_ok P unif (accept (Fin (fp x + nth j l (last l 0) * fl x)) (Fin (fp y + nth j l (last l 0) * fl y)))).
  { intros j x y Hj. rewrite (nth_indep l (last l 0) 0) by lia. apply Huo, Hj. }
  cbv zeta. rewrite <- (mass_ratio fp fl supp (nth J l 0) phi), <- (mass_ratio fp fl supp (nth J l 0) (fun _ => 1)).
  rewrite <- (nth_indep l (last l 0) 0 HJ).
  split.
  - refine (recorded_square P HP HP0 psamp cat fp fl pr supp gp gl l thr st n (length l - 1) m Hin HN Hne Tp Ti Hfl Hthr Hn Hc Hm Hps Hpi
      (SmcLawProofs.inner unif nrm fl pr steps) (SmcLawProofs.ival unif nrm fl pr st steps) (SmcLawProofs.ikeys steps) (SmcLawProofs.Kin P nrm fp fl pr st steps)
      _ _ _ _ _ left left_derived k J phi B Hl Hinc HJ _ HB Hphi).
    all: try lia; try apply SmcLawProofs.ikeys_derived.
    + intros. eapply SmcLawProofs.inner_ok; eassumption.
    + intros. eapply SmcLawProofs.ival_drawn; eassumption.
    + eapply SmcLawProofs.rows; eassumption.
    + eapply SmcLawProofs.inv; eassumption.
  - refine (average_square P HP HP0 psamp cat fp fl pr supp gp gl l thr st n (length l - 1) m Hin HN Hne Tp Ti Hfl Hthr Hn Hc Hm Hps Hpi
      (SmcLawProofs.inner unif nrm fl pr steps) (SmcLawProofs.ival unif nrm fl pr st steps) (SmcLawProofs.ikeys steps) (SmcLawProofs.Kin P nrm fp fl pr st steps)
      _ _ _ _ _ left left_derived k J phi B Hl Hinc HJ _ HB Hphi).
    all: try lia; try apply SmcLawProofs.ikeys_derived.
    + intros. eapply SmcLawProofs.inner_ok; eassumption.
    + intros. eapply SmcLawProofs.ival_drawn; eassumption.
    + eapply SmcLawProofs.rows; eassumption.
    + eapply SmcLawProofs.inv; eassumption.
Qed.
Print Assumptions C123_random_walk.

Lemma six_pos n xp : In xp (joint (repeat six n)) -> 0 <= snd xp.
Proof.
  apply joint_pos. intros d yp Hd. apply repeat_spec in Hd. subst d. unfold six. intros H.
  repeat (destruct H as [<-|H]; [cbn; lra|]). destruct H.
Qed.

Lemma two_quarter gp gl n E e : (0 < n)%nat -> reached (fun _ => 0) two_fl two_supp gp gl [1; 2] (/ 4) n (E, e) -> (s_iter e < 1)%nat ->
  resample_criterion (/ 4) E = false.
Proof.
  intros Hn Re.
  assert (G : forall c, reached (fun _ => 0) two_fl two_supp gp gl [1; 2] (/ 4) n c -> (s_iter (snd c) < 1)%nat -> resample_criterion (/ 4) (fst c) = false).
  2:{ apply (G (E, e) Re). }
  clear E e Re. intros c Re. induction Re as [vs k st Lv Iv|E0 e0 idx ys _ _ _ _ _ _|E0 e0 k _ IH]; intros Hj; [|cbn in Hj; lia|exact (IH Hj)].
  assert (Ne : vs <> []) by (intros ->; cbn in Lv; lia).
  assert (X : exp (- ln 2) = / 2) by (rewrite exp_Ropp, exp_ln by lra; reflexivity).
  unfold resample_criterion. rewrite (startup_ess (fun _ => 0) two_fl gp gl [1; 2] n Hn vs k st Ne). rewrite startup_length, Lv.
  set (c := smc_startup _ _ _ _ _ vs k st).
  assert (Lc : length (fst c) = n) by (unfold c; rewrite startup_length; exact Lv).
  assert (V : forall x, In x (map p_lw (fst c)) -> x = Fin 0 \/ x = Fin (- ln 2)).
  { intros x Hx. apply in_map_iff in Hx. destruct Hx as (p & <- & Hp). apply (In_nth _ _ dpart) in Hp. destruct Hp as (i & Hi & <-).
    rewrite Lc, <- Lv in Hi. unfold c. rewrite nth_startup by exact Hi. cbv zeta. cbn [p_lw]. rewrite nth_prestart by exact Hi. cbn [p_lik]. unfold lik, scheduled. cbn [nth xmul].
    assert (Iz : In (nth i vs (fun _ => 0)) two_supp) by (apply Iv, nth_In; lia).
    match goal with |- context [two_fl ?v] => set (z := v) end. change (nth i vs (fun _ => 0)) with z in Iz. clearbody z.
    destruct Iz as [<-|[<-|[]]]; rewrite two_fl_val; [left|right]; f_equal; lra. }
  assert (O : lw_ok (map p_lw (fst c))).
  { split.
    - apply Forall_forall. intros x Hx. right. destruct (V x Hx) as [-> | ->]; eexists; reflexivity.
    - destruct (map p_lw (fst c)) as [|a r] eqn:Em; [apply (f_equal (@length xr)) in Em; rewrite map_length, Lc in Em; cbn in Em; lia|].
      apply Exists_cons_hd. destruct (V a ltac:(left; reflexivity)) as [-> | ->]; eexists; reflexivity. }
  rewrite (ess_kish _ O). unfold kish. rewrite <- (map_length p_lw) in Lc.
  assert (Q : forall q : list xr, (forall x, In x q -> x = Fin 0 \/ x = Fin (- ln 2)) ->
     INR (length q) / 2 <= Rsum (weights q) /\ INR (length q) / 4 <= Rsum (map (fun x => x ^ 2) (weights q)) <= Rsum (weights q)).
  { clear - X. induction q as [|x q IH]; intros H; [cbn; lra|]. destruct IH as (I1 & I2 & I3); [intros y Hy; apply H; right; exact Hy|].
    unfold weights in *. cbn [length map Rsum]. rewrite S_INR.
    destruct (H x ltac:(left; reflexivity)) as [-> | ->]; cbn [weight]; rewrite ?X, ?exp_0; lra. }
  destruct (Q _ V) as (Q1 & Q2 & Q3). rewrite Lc in *. assert (N : 0 < INR n) by (apply lt_0_INR; exact Hn).
  set (u := Rsum (weights _)) in *. set (v := Rsum (map _ (weights _))) in *.
  unfold xleb. apply Bool.not_true_is_false. intros C. apply Rleb_true in C.
  assert (Pv : 0 < v) by lra. assert (D : u ^ 2 <= / 4 * INR n * v) by (apply (Rmult_le_reg_r (/ v)); [apply Rinv_0_lt_compat, Pv|];
    replace (/ 4 * INR n * v * / v) with (/ 4 * INR n) by (field; lra); exact C).
  assert (/ 4 * INR n * v <= / 4 * INR n * u) by (apply Rmult_le_compat_l; [lra|exact Q3]). nra.
Qed.

(** The setting of C110's example with any number [n] of particles and a threshold
    of a quarter, and with two particles resampled at every update: expected
    squared errors of the averages at both temperatures. *)
Example C123_example :
  let P := joint (repeat six 2) in
  forall steps n thr, (0 < n)%nat -> thr = / 4 \/ (n = 2%nat /\ thr = 1) ->
  let E := fun J w => nth J
    (smc_sampled (fun k => six_point (w k)) (fun v _ => two_pr v) (fun v _ => Fin (two_fl v)) (fun _ _ _ => 0) (fun _ _ _ => 0)
      (fun k => s_cat six_sampler (w k)) (fun k => six_step (w k)) (fun k => six_u (w k)) steps [1; 2] thr n (KRoot 0) 1) [] in
  let one := fun v : vec => if Req_EM_T (v 0%nat) 1 then 1 else 0 in
  at_most P (fun w => (average one (E 0%nat w) - / 3)^2) (64 / (9 * (thr * INR n)))
  /\ at_most P (fun w => (average one (E 1%nat w) - / 5)^2) (512 / (25 * (thr * INR n))).
Proof.
  intros P steps n thr Hn Hthr E one.
  assert (L : 0 < ln 2) by (rewrite <- ln_1; apply ln_increasing; lra).
  assert (X : exp (- ln 2) = / 2) by (rewrite exp_Ropp, exp_ln by lra; reflexivity).
  assert (Tp : 0 < thr <= 1) by (destruct Hthr as [-> | [_ ->]]; lra).
  assert (N : 0 < INR n) by (apply lt_0_INR; exact Hn).
  assert (Np : two_pt false <> two_pt true).
  { intros C. apply (f_equal (fun v => v 0%nat)) in C. cbn in C. lra. }
  assert (Ps : forall phi, mean P (fun x => phi (six_point x)) = mean (prior_law (fun _ => 0) two_fl two_supp) phi).
  { intros phi. unfold P, six_point. rewrite (six_first 2 (fun x => phi (two_pt (Nat.even x)))) by lia. rewrite mean_six. cbn -[prior_law].
    unfold prior_law, mean, gsum, gam, two_supp. cbn. rewrite !two_fl_val. replace (- 0 - 0 * 0) with 0 by lra.
    replace (- 0 - 0 * ln 2) with 0 by lra. rewrite exp_0. field. }
  pose proof (C123_random_walk (list nat) P six_u six_step six_point (s_cat six_sampler) (fun _ => 0) two_fl two_pr two_supp (fun _ _ _ => 0) (fun _ _ _ => 0)
    [1; 2] thr 1 steps n 0 (six_prob 2) (six_pos 2)) as H.
  assert (G : forall J, (J < 2)%nat ->
    let r := mass (fun _ => 0) two_fl two_supp (nth J [1; 2] 0) one in
    let rho := mass (fun _ => 0) two_fl two_supp (nth J [1; 2] 0) (fun _ => 1) in
    at_most P (fun w => (average one (E J w) - r / rho)^2) (4 * (INR (S J) * (exp (0 * nth J [1; 2] 0) * 1)^2 / (Rmin 1 thr * INR n)) / rho ^ 2)).
  { intros J HJ. apply H; clear H.
    - intros x Hx. unfold two_pr. destruct (dec _); [reflexivity|contradiction].
    - intros x Hx. unfold two_pr. destruct (dec _); [contradiction|reflexivity].
    - repeat constructor; [|intros []]. intros [C|[]]. congruence.
    - discriminate.
    - intros x [<-|[<-|[]]]; rewrite two_fl_val; lra.
    - discriminate.
    - repeat constructor; lra.
    - intros [|j] Hj; [cbn; lra|cbn in Hj; lia].
    - intros [|j] Hj; [cbn; lra|cbn in Hj; lia].
    - lra.
    - exact Hn.
    - intros x. unfold six_u. pose proof (Nat.mod_upper_bound (nth 0 x 0%nat) 6 ltac:(lia)) as B. apply lt_INR in B. replace (INR 6) with 6 in B by (cbn; lra).
      pose proof (pos_INR (nth 0 x 0 mod 6)%nat). split; lra.
    - intros f. unfold P, six_step. rewrite (six_first 2 (fun x => f (fun _ => if Nat.even x then 1 else -1))) by lia.
      rewrite (six_first 2 (fun x => f (fun _ => - (if Nat.even x then 1 else -1)))) by lia. rewrite !mean_six. cbn [Nat.even].
      replace (fun _ : nat => - -1) with (fun _ : nat => 1) by (extensionality i; lra).
      change (-1) with (- (1)). lra.
    - intros j x y Hj Hx Hy. assert (j = 0%nat) by (cbn in Hj; lia). subst j. cbn [nth accept].
      apply half_uniform. destruct Hx as [<-|[<-|[]]], Hy as [<-|[<-|[]]]; rewrite !two_fl_val.
      + left. replace (0 + 1 * 0 - (0 + 1 * 0)) with 0 by lra. rewrite exp_0, Rmin_left; lra.
      + right. replace (0 + 1 * 0 - (0 + 1 * ln 2)) with (- ln 2) by lra. rewrite X, Rmin_right; lra.
      + left. replace (0 + 1 * ln 2 - (0 + 1 * 0)) with (ln 2) by lra. rewrite exp_ln, Rmin_left; lra.
      + left. replace (0 + 1 * ln 2 - (0 + 1 * ln 2)) with 0 by lra. rewrite exp_0, Rmin_left; lra.
    - intros x k lw m Hm. destruct (six_ok (fun _ => x)) as (_ & N' & _). destruct (N' k lw m) as (N1 & N2 & N3).
      { intros C. rewrite <- Hm, C. reflexivity. }
      rewrite Hm in N2. repeat split; assumption.
    - intros E' e Re Hj C. destruct Hthr as [-> | [-> ->]].
      + rewrite (two_quarter _ _ n E' e Hn Re Hj) in C. discriminate.
      + apply (two_multinomial _ _ _ E' e Re). exact Hj.
    - exact Ps.
    - intros x. unfold six_point, two_supp. destruct (Nat.even _); cbn; auto.
    - exact HJ.
    - lra.
    - intros x _. unfold one. destruct (Req_EM_T _ _); [rewrite Rabs_R1|rewrite Rabs_R0]; lra. }
  assert (O1 : forall b, one (two_pt b) = if b then 1 else 0).
  { intros b. unfold one, two_pt. destruct b, (Req_EM_T _ _); try reflexivity; lra. }
  split.
  - specialize (G 0%nat ltac:(lia)). cbv zeta in G. unfold mass, two_supp in G. cbn [nth map Rsum INR] in G. rewrite !two_fl_val, !O1 in G.
    replace (- 0 - 1 * 0) with 0 in G by lra. replace (- 0 - 1 * ln 2) with (- ln 2) in G by lra. rewrite Ropp_0, X, Rmult_0_l, exp_0, Rmin_right in G by lra.
    destruct G as (v & Gv & Gb). exists v. split.
    + replace (/ 3) with ((1 * 0 + (/ 2 * 1 + 0)) / (1 + (1 + 0)) / ((1 * 1 + (/ 2 * 1 + 0)) / (1 + (1 + 0)))) by (field; lra). exact Gv.
    + eapply Rle_trans; [exact Gb|]. right. field. lra.
  - specialize (G 1%nat ltac:(lia)). cbv zeta in G. unfold mass, two_supp in G. cbn [nth map Rsum INR] in G. rewrite !two_fl_val, !O1 in G.
    replace (- 0 - 2 * 0) with 0 in G by lra. replace (- 0 - 2 * ln 2) with (- ln 2 + - ln 2) in G by lra. rewrite exp_plus, Ropp_0, X, Rmult_0_l, exp_0, Rmin_right in G by lra.
    destruct G as (v & Gv & Gb). exists v. split.
    + replace (/ 5) with ((1 * 0 + (/ 2 * / 2 * 1 + 0)) / (1 + (1 + 0)) / ((1 * 1 + (/ 2 * / 2 * 1 + 0)) / (1 + (1 + 0)))) by (field; lra). exact Gv.
    + eapply Rle_trans; [exact Gb|]. right. field. lra.
Qed.

Lemma average_parts (A B : ensemble) phi : map er A = map er B -> average phi A = average phi B /\ constant A = constant B.
Proof.
  intros H. unfold average, constant.
  assert (H1 : map p_lw A = map p_lw B) by (rewrite <- (lw_er A), H, lw_er; reflexivity).
  assert (H2 : map (fun p => phi (p_value p)) A = map (fun p => phi (p_value p)) B).
  { apply (f_equal (map (fun p => phi (p_value p)))) in H. rewrite !map_map in H. exact H. }
  assert (H3 : p_lnc (first A) = p_lnc (first B)).
  { destruct A, B; try discriminate; [reflexivity|]. cbn in H. injection H as _ _ _ _ _ _ _ E _. exact E. }
  rewrite H1, H2, H3. auto.
Qed.

(** The same with Underdamped as inner sampler. *)
Theorem C123_underdamped :
  forall (W : Type) (P : law W) (unif : W -> R) (nrm : W -> nat -> R) (psamp : W -> vec) (cat : W -> list xr -> nat -> list nat)
         (prior lik : vec -> xr * vec) (fp fl : vec -> R) (supp : list vec) (d L : nat)
         (l : list R) (thr st : R) (steps n : nat) (m : R),
  prob P -> (forall xp, In xp P -> 0 <= snd xp) ->
  (forall x, In x supp -> fst (prior x) = Fin (fp x)) -> (forall x, ~ In x supp -> fst (prior x) = PInf) ->
  (forall x, fst (lik x) = Fin (fl x)) -> NoDup supp -> supp <> [] ->
  (forall x, In x supp -> - m <= fl x) ->
  l <> [] -> List.Forall (fun t => 0 < t) l -> (forall j, (j < length l - 1)%nat -> nth j l 0 < last l 0) ->
  (forall j, (S j < length l)%nat -> nth j l 0 <= nth (S j) l 0) -> 0 < thr -> (0 < n)%nat ->
  (forall x, 0 <= unif x < 1) ->
  (forall j, (j < length l - 1)%nat ->
     let pot := tempered_pot prior lik (nth j l 0) in
     let grad := tempered_grad prior lik (nth j l 0) in
     canonical d pot grad st L P nrm supp
     /\ forall x u, In x supp ->
        let z := (x, nrm u : vec) in let z' := trajectory grad st L z in
        In (fst z') supp -> uniform_ok P unif (accept (energy d pot z) (energy d pot z'))) ->
  (forall x, categorical_ok (fun _ => cat x)) ->
  (forall E e, reached fp fl supp (fun v _ => snd (prior v)) (fun v _ => snd (lik v)) l thr n (E, e) -> (s_iter e < length l - 1)%nat ->
     resample_criterion thr E = true -> multinomial P cat E) ->
  (forall phi, mean P (fun x => phi (psamp x)) = mean (prior_law fp fl supp) phi) -> (forall x, In (psamp x) supp) ->
  forall (k : key) (J : nat) (phi : vec -> R) (B : R), (J < length l)%nat ->
  0 <= B -> (forall x, In x supp -> Rabs (phi x) <= B) ->
  let E := fun w => map u_part (nth J (ud_chain unif nrm psamp cat prior lik d L steps l thr st n k w) []) in
  let r := mass fp fl supp (nth J l 0) phi in
  let rho := mass fp fl supp (nth J l 0) (fun _ => 1) in
  let c := INR (S J) * (exp (m * nth J l 0) * B)^2 / (Rmin 1 thr * INR n) in
  at_most P (fun w => (constant (E w) * average phi (E w) - r)^2) c
  /\ at_most P (fun w => (average phi (E w) - r / rho)^2) (4 * c / rho^2).
Proof.
  intros W P unif nrm psamp cat prior lik fp fl supp d L l thr st steps n m HP HP0 Hin Hout Hlik HN Hne Hfl Hl Hpos Hinc Hnd Hthr Hn Hu Hmove Hc Hm Hps Hpi k J phi B HJ HB Hphi.
  pose proof (schedule_pos l Hl Hpos) as Tp. pose proof (schedule_inc l Hnd) as Ti.
  assert (Hmove' : forall j, (j < length l - 1)%nat ->
     canonical d (tempered_pot prior lik (nth j l (last l 0))) (tempered_grad prior lik (nth j l (last l 0))) st L P nrm supp
     /\ forall x u, In x supp -> In (fst (trajectory (tempered_grad prior lik (nth j l (last l 0))) st L (x, nrm u))) supp ->
        uniform_ok P unif (accept (energy d (tempered_pot prior lik (nth j l (last l 0))) (x, nrm u))
          (energy d (tempered_pot prior lik (nth j l (last l 0))) (trajectory (tempered_grad prior lik (nth j l (last l 0))) st L (x, nrm u))))).
  { intros j Hj. rewrite (nth_indep l (last l 0) 0) by lia. exact (Hmove j Hj). }
  cbv zeta. rewrite <- (mass_ratio fp fl supp (nth J l 0) phi), <- (mass_ratio fp fl supp (nth J l 0) (fun _ => 1)).
  rewrite <- (nth_indep l (last l 0) 0 HJ).
  assert (Eq : forall w, let A := map u_part (nth J (ud_chain unif nrm psamp cat prior lik d L steps l thr st n k w) []) in
    let C := nth J (run_chain psamp cat fl (SmcUdProofs.pr prior) (gp prior) (gl lik) l thr st n (SmcUdProofs.inner unif nrm prior lik d L steps) SmcUdProofs.after w k) [] in
    average phi A = average phi C /\ constant A = constant C).
  { intros w. apply average_parts. apply nth_er. apply (chain_er unif nrm psamp cat prior lik fl d L l thr st steps n w k Hlik). }
  cbv zeta in Eq.
  split.
  - match goal with |- at_most _ _ ?c => assert (H : at_most P (fun w => let E := nth J (run_chain psamp cat fl (SmcUdProofs.pr prior) (gp prior) (gl lik) l thr st n
      (SmcUdProofs.inner unif nrm prior lik d L steps) SmcUdProofs.after w k) [] in (constant E * average phi E - ratio fp fl supp (nth J l (last l 0)) phi)^2) c) end.
    { refine (recorded_square P HP HP0 psamp cat fp fl (SmcUdProofs.pr prior) supp (gp prior) (gl lik) l thr st n (length l - 1) m Hin HN Hne Tp Ti Hfl Hthr Hn Hc Hm Hps Hpi
      (SmcUdProofs.inner unif nrm prior lik d L steps) (SmcUdProofs.ival unif nrm prior lik d L st steps) (SmcUdProofs.ikeys L steps)
      (SmcUdProofs.Kin P nrm prior lik d L l st steps (length l - 1))
      _ _ _ _ _ SmcUdProofs.after SmcUdProofs.after_derived k J phi B Hl Hinc HJ _ HB Hphi).
      all: try lia; try apply SmcUdProofs.ikeys_derived.
      + intros. eapply SmcUdProofs.inner_ok; eassumption.
      + intros. eapply SmcUdProofs.ival_drawn; try eassumption. intros j' x u Hj'. apply (proj2 (Hmove' j' Hj')).
      + eapply Kin_rows; eassumption.
      + eapply Kin_inv; try eassumption. intros j Hj. apply (proj1 (Hmove' j Hj)). }
    destruct H as (v & [ks H] & Hv). exists v. split; [|exact Hv]. exists ks. eapply mean_on_ext; [|exact H]. intros w. cbv zeta.
    destruct (Eq w) as [E1 E2]. rewrite E1, E2. reflexivity.
  - match goal with |- at_most _ _ ?c => assert (H : at_most P (fun w => (average phi (nth J (run_chain psamp cat fl (SmcUdProofs.pr prior) (gp prior) (gl lik) l thr st n
      (SmcUdProofs.inner unif nrm prior lik d L steps) SmcUdProofs.after w k) []) - ratio fp fl supp (nth J l (last l 0)) phi / ratio fp fl supp (nth J l (last l 0)) (fun _ => 1))^2) c) end.
    { refine (average_square P HP HP0 psamp cat fp fl (SmcUdProofs.pr prior) supp (gp prior) (gl lik) l thr st n (length l - 1) m Hin HN Hne Tp Ti Hfl Hthr Hn Hc Hm Hps Hpi
      (SmcUdProofs.inner unif nrm prior lik d L steps) (SmcUdProofs.ival unif nrm prior lik d L st steps) (SmcUdProofs.ikeys L steps)
      (SmcUdProofs.Kin P nrm prior lik d L l st steps (length l - 1))
      _ _ _ _ _ SmcUdProofs.after SmcUdProofs.after_derived k J phi B Hl Hinc HJ _ HB Hphi).
      all: try lia; try apply SmcUdProofs.ikeys_derived.
      + intros. eapply SmcUdProofs.inner_ok; eassumption.
      + intros. eapply SmcUdProofs.ival_drawn; try eassumption. intros j' x u Hj'. apply (proj2 (Hmove' j' Hj')).
      + eapply Kin_rows; eassumption.
      + eapply Kin_inv; try eassumption. intros j Hj. apply (proj1 (Hmove' j Hj)). }
    destruct H as (v & [ks H] & Hv). exists v. split; [|exact Hv]. exists ks. eapply mean_on_ext; [|exact H]. intros w. cbv zeta.
    destruct (Eq w) as [E1 E2]. rewrite E1. reflexivity.
Qed.
Print Assumptions C123_underdamped.

Example C123_example_underdamped :
  let P := joint (repeat six 2) in
  forall steps,
  let E := fun J w => map u_part (nth J (ud_chain six_u six_mom six_point (s_cat six_sampler) flat_prior flat_lik 1 1 steps [1; 2] 1 1 2 (KRoot 0) w) []) in
  let one := fun v : vec => if Req_EM_T (v 0%nat) 1 then 1 else 0 in
  at_most P (fun w => (constant (E 0%nat w) * average one (E 0%nat w) - / 4)^2) (1 / 2)
  /\ at_most P (fun w => (constant (E 1%nat w) * average one (E 1%nat w) - / 8)^2) 1.
Proof.
  intros P steps E one.
  assert (L : 0 < ln 2) by (rewrite <- ln_1; apply ln_increasing; lra).
  assert (X : exp (- ln 2) = / 2) by (rewrite exp_Ropp, exp_ln by lra; reflexivity).
  assert (H2 : exp (/ 2) * exp (- / 2) = 1) by (rewrite <- exp_plus, Rplus_opp_r, exp_0; reflexivity).
  pose proof (C123_underdamped (list nat) P six_u six_mom six_point (s_cat six_sampler) flat_prior flat_lik (fun _ => 0) two_fl two_supp 1 1
    [1; 2] 1 1 steps 2 0 (six_prob 2) (six_pos 2)) as H.
  assert (G : forall J, (J < 2)%nat -> at_most P (fun w => (constant (E J w) * average one (E J w) - mass (fun _ => 0) two_fl two_supp (nth J [1; 2] 0) one)^2)
    (INR (S J) * (exp (0 * nth J [1; 2] 0) * 1)^2 / (Rmin 1 1 * INR 2))).
  { intros J HJ. apply H; clear H.
    - intros x [<-|[<-|[]]]; apply two_pr_on.
    - intros x Hx. unfold flat_prior, two_pr. cbn [fst]. destruct (dec _) as [C|_]; [contradiction|reflexivity].
    - reflexivity.
    - constructor; [|constructor; [intros []|constructor]]. intros [C|[]]. apply (f_equal (fun v => v 0%nat)) in C. cbn in C. lra.
    - discriminate.
    - intros x [<-|[<-|[]]]; rewrite two_fl_val; lra.
    - discriminate.
    - repeat constructor; lra.
    - intros j Hj. assert (j = 0%nat) by (cbn in Hj; lia). subst j. cbn. lra.
    - intros [|j] Hj; [cbn; lra|cbn in Hj; lia].
    - lra.
    - lia.
    - intros x. unfold six_u. pose proof (Nat.mod_upper_bound (nth 0 x 0%nat) 6 ltac:(lia)) as B. apply lt_INR in B. replace (INR 6) with 6 in B by (cbn; lra).
      pose proof (pos_INR (nth 0 x 0 mod 6)%nat). split; lra.
    - intros j Hj. assert (j = 0%nat) by (cbn in Hj; lia). subst j. cbn [nth]. cbv zeta.
      set (pot := tempered_pot flat_prior flat_lik 1). set (grad := tempered_grad flat_prior flat_lik 1). split.
      + exists six_points. split; [apply flat_kept|]. intros f.
        assert (Pm : forall x, mean P (fun u => f (x, six_mom u)) = (f (x, fun _ => 1) + f (x, fun _ => -1)) / 2).
        { intros x. unfold P, six_mom. rewrite (six_first 2 (fun y => f (x, fun _ => if Nat.even y then 1 else -1))) by lia. rewrite mean_six. cbn [Nat.even]. lra. }
        rewrite (Rsum_ext _ (fun x => density (pot x) * ((f (x, fun _ => 1) + f (x, fun _ => -1)) / 2))) by (intros x _; rewrite Pm; reflexivity).
        unfold six_points, mean, two_supp. cbn [map Rsum fst snd]. unfold boltzmann, pot.
        rewrite (flat_energy_off 1 (-1) 1) by lra. rewrite (flat_energy_off 1 2 (-1)) by lra.
        change (ph 0 1) with (two_pt false, (fun _ : nat => 1)). change (ph 0 (-1)) with (two_pt false, (fun _ : nat => -1)).
        change (ph 1 1) with (two_pt true, (fun _ : nat => 1)). change (ph 1 (-1)) with (two_pt true, (fun _ : nat => -1)).
        rewrite !flat_energy. unfold tempered_pot, flat_prior, flat_lik. cbn [fst snd]. rewrite !two_pr_on, !two_fl_val. cbn [xadd xmul density].
        replace (- (0 + 1 * 0)) with 0 by lra. replace (- (0 + 1 * ln 2)) with (- ln 2) by lra.
        replace (- (1 * 0 + 1 * 1 / 2)) with (- / 2) by lra. replace (- (1 * 0 + -1 * -1 / 2)) with (- / 2) by lra.
        replace (- (1 * ln 2 + 1 * 1 / 2)) with (- ln 2 + - / 2) by lra. replace (- (1 * ln 2 + -1 * -1 / 2)) with (- ln 2 + - / 2) by lra.
        rewrite !exp_plus, X, exp_0. set (e := exp (/ 2)) in *. set (e' := exp (- / 2)) in *.
        assert (Ee : e / 2 * e' = / 2) by (replace (e / 2 * e') with (e * e' / 2) by field; rewrite H2; field).
        transitivity (e / 2 * e' * (f (two_pt false, fun _ => 1) + f (two_pt false, fun _ => -1))
                    + e / 2 * e' * (/ 2 * (f (two_pt true, fun _ => 1) + f (two_pt true, fun _ => -1)))); [rewrite Ee; field|field].
      + intros x u Hx Hz'. set (z := (x, six_mom u : vec)) in *. set (z' := trajectory grad 1 1 z) in *.
        assert (B : forall v, In v two_supp -> exists b, v = two_pt b) by (intros v [<-|[<-|[]]]; eexists; reflexivity).
        destruct (B x Hx) as [b Eb]. destruct (B _ Hz') as [b' Eb'].
        set (m := if Nat.even (nth 0 u 0%nat) then 1 else -1).
        assert (Ez : z = (two_pt b, fun _ => m)) by (unfold z; rewrite Eb; reflexivity).
        assert (Ez' : z' = (two_pt b', fun _ => - m)).
        { rewrite <- Eb'. unfold z'. rewrite Ez. change (two_pt b, (fun _ : nat => m)) with (ph (if b then 1 else 0) m). unfold grad. rewrite flat_trajectory. reflexivity. }
        rewrite Ez, Ez'. unfold pot. rewrite !flat_energy, !two_fl_val. cbn [accept]. apply half_uniform.
        match goal with |- context [exp ?y] => replace y with ((if b then ln 2 else 0) - (if b' then ln 2 else 0)) by lra end.
        destruct b, b'.
        * left. rewrite Rminus_diag_eq, exp_0 by reflexivity. apply Rmin_left. lra.
        * left. rewrite Rminus_0_r, exp_ln by lra. apply Rmin_left. lra.
        * right. rewrite Rminus_0_l, X. apply Rmin_right. lra.
        * left. rewrite Rminus_diag_eq, exp_0 by reflexivity. apply Rmin_left. lra.
    - intros x k lw m Hm. destruct (six_ok (fun _ => x)) as (_ & N & _). destruct (N k lw m) as (N1 & N2 & N3).
      { intros C. rewrite <- Hm, C. reflexivity. }
      rewrite Hm in N2. repeat split; assumption.
    - intros E' e Re Hj _. apply (two_multinomial _ _ _ E' e Re). exact Hj.
    - intros phi. unfold P, six_point. rewrite (six_first 2 (fun x => phi (two_pt (Nat.even x)))) by lia. rewrite mean_six. cbn -[prior_law].
      unfold prior_law, mean, gsum, gam, two_supp. cbn. rewrite !two_fl_val. replace (- 0 - 0 * 0) with 0 by lra.
      replace (- 0 - 0 * ln 2) with 0 by lra. rewrite exp_0. field.
    - intros x. unfold six_point, two_supp. destruct (Nat.even _); cbn; auto.
    - exact HJ.
    - lra.
    - intros x _. unfold one. destruct (Req_EM_T _ _); [rewrite Rabs_R1|rewrite Rabs_R0]; lra. }
  assert (O1 : forall b, one (two_pt b) = if b then 1 else 0).
  { intros b. unfold one, two_pt. destruct b, (Req_EM_T _ _); try reflexivity; lra. }
  split.
  - specialize (G 0%nat ltac:(lia)). unfold mass, two_supp in G. cbn [nth map Rsum INR] in G. rewrite !two_fl_val, !O1 in G.
    replace (- 0 - 1 * 0) with 0 in G by lra. replace (- 0 - 1 * ln 2) with (- ln 2) in G by lra. rewrite Ropp_0, X, Rmult_0_l, exp_0, Rmin_left in G by lra.
    destruct G as (v & Gv & Gb). exists v. split.
    + replace (/ 4) with ((1 * 0 + (/ 2 * 1 + 0)) / (1 + (1 + 0))) by (field; lra). exact Gv.
    + eapply Rle_trans; [exact Gb|]. right. field.
  - specialize (G 1%nat ltac:(lia)). unfold mass, two_supp in G. cbn [nth map Rsum INR] in G. rewrite !two_fl_val, !O1 in G.
    replace (- 0 - 2 * 0) with 0 in G by lra. replace (- 0 - 2 * ln 2) with (- ln 2 + - ln 2) in G by lra. rewrite exp_plus, Ropp_0, X, Rmult_0_l, exp_0, Rmin_left in G by lra.
    destruct G as (v & Gv & Gb). exists v. split.
    + replace (/ 8) with ((1 * 0 + (/ 2 * / 2 * 1 + 0)) / (1 + (1 + 0))) by (field; lra). exact Gv.
    + eapply Rle_trans; [exact Gb|]. right. field.
Qed.
