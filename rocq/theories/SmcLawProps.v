(** C110: a tempered SMC run computed from one key, with RandomWalk and Metropolis
    as inner sampler, reports an unbiased estimate of the normalising constant. *)
From Coq Require Import Reals List Arith Bool Lia Lra FunctionalExtensionality.
From Verif Require Import XR Keys McmcModel McmcSpec WeightsModel WeightsSpec SmcModel SmcSpec SmcProps
  UnbSpec UnbProofs UnbProps KexpSpec KexpProofs ChainSpec ChainProofs FilterModel FilterSpec BackModel BackLawSpec BackLawProofs BackLawProps
  SmcLawModel SmcLawSpec SmcMoveProofs SmcLawProofs.
Import ListNotations.
Open Scope R_scope.

(** For every number of particles, of inner steps, resampling threshold, schedule
    and position [J] in it, and every function [phi] on the support: the expected
    value, over the random streams, of the recorded normalising constant times
    the weighted average of [phi] is the sum of [phi] against the tempered density
    relative to the mass of the prior.  [pr] is the prior potential: infinite off
    [supp], so that proposals may leave the support. *)
Theorem C110_weighted_average :
  forall (W : Type) (P : law W) (unif : W -> R) (nrm : W -> nat -> R) (psamp : W -> vec) (cat : W -> list xr -> nat -> list nat)
         (fp fl : vec -> R) (pr : vec -> xr) (supp : list vec) (gprior glik : vec -> key -> vec)
         (l : list R) (thr st : R) (steps n : nat),
  prob P ->
  (forall x, In x supp -> pr x = Fin (fp x)) -> (forall x, ~ In x supp -> pr x = PInf) -> NoDup supp -> supp <> [] ->
  l <> [] -> List.Forall (fun t => 0 < t) l -> (forall j, (j < length l - 1)%nat -> nth j l 0 < last l 0) -> (0 < n)%nat ->
  (* the draws *)
  (forall x, 0 <= unif x < 1) -> symmetric_steps P nrm ->
  (forall j x y, (j < length l - 1)%nat -> In x supp -> In y supp ->
     uniform_ok P unif (accept (Fin (fp x + nth j l 0 * fl x)) (Fin (fp y + nth j l 0 * fl y)))) ->
  (forall x, categorical_ok (fun _ => cat x)) ->
  (forall E e, reached fp fl supp gprior glik l thr n (E, e) -> (s_iter e < length l - 1)%nat ->
     resample_criterion thr E = true -> multinomial P cat E) ->
  (forall phi, mean P (fun x => phi (psamp x)) = mean (prior_law fp fl supp) phi) -> (forall x, In (psamp x) supp) ->
  forall (k : key) (J : nat) (phi : vec -> R), (J < length l)%nat ->
  has_mean P
    (fun w => let E := nth J (smc_sampled (fun k => psamp (w k)) (fun v _ => pr v) (fun v _ => Fin (fl v)) gprior glik
                                (fun k => cat (w k)) (fun k => nrm (w k)) (fun k => unif (w k)) steps l thr n k st) [] in
              exp (rval (p_lnc (first E))) * weighted_mean (weights (map p_lw E)) (map (fun p => phi (p_value p)) E))
    (Rsum (map (fun x => exp (- fp x - nth J l 0 * fl x) * phi x) supp) / Rsum (map (fun x => exp (- fp x)) supp)).
Proof.
  intros W P unif nrm psamp cat fp fl pr supp gp gl l thr st steps n HP Hin Hout HN Hne Hl Hpos Hinc Hn Hu Hs Huo Hc Hm Hps Hpi k J phi HJ.
  pose proof (schedule_pos l Hl Hpos) as Tp.
  assert (Huo' : forall j x y, (j < length l - 1)%nat -> In x supp -> In y supp ->
     uniform_ok P unif (accept (Fin (fp x + nth j l (last l 0) * fl x)) (Fin (fp y + nth j l (last l 0) * fl y)))).
  { intros j x y Hj. rewrite (nth_indep l (last l 0) 0) by lia. apply Huo, Hj. }
  refine (recorded_average P HP psamp cat fp fl pr supp gp gl l thr st n (length l - 1) Hin Hne Tp Hn Hc Hm Hps Hpi
    (inner unif nrm fl pr steps) (ival unif nrm fl pr st steps) (ikeys steps) (Kin P nrm fp fl pr st steps)
    _ _ _ _ _ left left_derived k J phi Hl Hinc HJ _).
  - intros. eapply inner_ok; eassumption.
  - apply ikeys_derived.
  - intros. eapply ival_drawn; eassumption.
  - eapply rows; eassumption.
  - eapply inv; eassumption.
  - lia.
Qed.
Print Assumptions C110_weighted_average.

(** In particular the normalising constants [clean_chain] leaves on the chain are
    unbiased estimates of the ratios of normalising constants. *)
Theorem C110_unbiased :
  forall (W : Type) (P : law W) (unif : W -> R) (nrm : W -> nat -> R) (psamp : W -> vec) (cat : W -> list xr -> nat -> list nat)
         (fp fl : vec -> R) (pr : vec -> xr) (supp : list vec) (gprior glik : vec -> key -> vec)
         (l : list R) (thr st : R) (steps n : nat),
  prob P ->
  (forall x, In x supp -> pr x = Fin (fp x)) -> (forall x, ~ In x supp -> pr x = PInf) -> NoDup supp -> supp <> [] ->
  l <> [] -> List.Forall (fun t => 0 < t) l -> (forall j, (j < length l - 1)%nat -> nth j l 0 < last l 0) -> (0 < n)%nat ->
  (forall x, 0 <= unif x < 1) -> symmetric_steps P nrm ->
  (forall j x y, (j < length l - 1)%nat -> In x supp -> In y supp ->
     uniform_ok P unif (accept (Fin (fp x + nth j l 0 * fl x)) (Fin (fp y + nth j l 0 * fl y)))) ->
  (forall x, categorical_ok (fun _ => cat x)) ->
  (forall E e, reached fp fl supp gprior glik l thr n (E, e) -> (s_iter e < length l - 1)%nat ->
     resample_criterion thr E = true -> multinomial P cat E) ->
  (forall phi, mean P (fun x => phi (psamp x)) = mean (prior_law fp fl supp) phi) -> (forall x, In (psamp x) supp) ->
  forall (k : key) (J : nat), (J < length l)%nat ->
  has_mean P
    (fun w => exp (rval (nth J (clean_lnc (smc_sampled (fun k => psamp (w k)) (fun v _ => pr v) (fun v _ => Fin (fl v)) gprior glik
                                (fun k => cat (w k)) (fun k => nrm (w k)) (fun k => unif (w k)) steps l thr n k st)) NaN)))
    (Rsum (map (fun x => exp (- fp x - nth J l 0 * fl x)) supp) / Rsum (map (fun x => exp (- fp x)) supp)).
Proof.
  intros W P unif nrm psamp cat fp fl pr supp gp gl l thr st steps n HP Hin Hout HN Hne Hl Hpos Hinc Hn Hu Hs Huo Hc Hm Hps Hpi k J HJ.
  pose proof (schedule_pos l Hl Hpos) as Tp.
  assert (Huo' : forall j x y, (j < length l - 1)%nat -> In x supp -> In y supp ->
     uniform_ok P unif (accept (Fin (fp x + nth j l (last l 0) * fl x)) (Fin (fp y + nth j l (last l 0) * fl y)))).
  { intros j x y Hj. rewrite (nth_indep l (last l 0) 0) by lia. apply Huo, Hj. }
  refine (recorded_constant P HP psamp cat fp fl pr supp gp gl l thr st n (length l - 1) Hin Hne Tp Hn Hc Hm Hps Hpi
    (inner unif nrm fl pr steps) (ival unif nrm fl pr st steps) (ikeys steps) (Kin P nrm fp fl pr st steps)
    _ _ _ _ _ left left_derived k J Hl Hinc HJ _).
  - intros. eapply inner_ok; eassumption.
  - apply ikeys_derived.
  - intros. eapply ival_drawn; eassumption.
  - eapply rows; eassumption.
  - eapply inv; eassumption.
  - lia.
Qed.
Print Assumptions C110_unbiased.

(** Two particles on the points 0 and 1 with flat prior and likelihood potential
    ln 2 at 1, steps of plus or minus 1 (so that half of the proposals leave the
    support), schedule 1, 2, resampling at every update: the recorded normalising
    constants have expected values 3/4 and 5/8. *)
Definition two_pt (b : bool) : vec := fun _ => if b then 1 else 0.
Definition two_fl (v : vec) : R := if Req_EM_T (v 0%nat) 1 then ln 2 else 0.
Definition two_pr (v : vec) : xr := if dec (In v [two_pt false; two_pt true]) then Fin 0 else PInf.
Definition six_u (w : list nat) : R := INR (nth 0 w 0%nat mod 6) / 6.
Definition six_step (w : list nat) (_ : nat) : R := if Nat.even (nth 0 w 0%nat) then 1 else -1.
Definition six_point (w : list nat) : vec := two_pt (Nat.even (nth 0 w 0%nat)).

Lemma two_fl_val b : two_fl (two_pt b) = if b then ln 2 else 0.
Proof. unfold two_fl, two_pt. destruct b, (Req_EM_T _ _); try reflexivity; lra. Qed.

Lemma half_uniform a : a = 1 \/ a = / 2 -> uniform_ok (joint (repeat six 2)) six_u a.
Proof.
  intros H g. unfold six_u. rewrite (six_first 2 (fun x => g (Rltb (INR (x mod 6) / 6) a))) by lia. rewrite mean_six. cbn -[Rltb INR].
  assert (L : forall x, (x < 6)%nat -> Rltb (INR x / 6) a = if (x <? 3)%nat then true else Rltb (/ 2) a).
  { intros x Hx. assert (D : (x = 0 \/ x = 1 \/ x = 2 \/ x = 3 \/ x = 4 \/ x = 5)%nat) by lia.
    destruct D as [->|[->|[->|[->|[->| ->]]]]]; cbn -[Rltb]; unfold Rltb; destruct H as [->| ->]; repeat destruct (Rlt_dec _ _); try reflexivity; lra. }
  rewrite !L by lia. cbn -[Rltb]. unfold Rltb. destruct H as [->| ->]; destruct (Rlt_dec _ _); try lra.
Qed.

Lemma two_cat lw f : (exists a b : bool, lw = [Fin (if a then - ln 2 else 0); Fin (if b then - ln 2 else 0)]) ->
  mean six (fun x => f (six_pick x lw)) = mean (BackLawSpec.cat_law lw) f.
Proof.
  intros (a & b & ->). assert (L : 0 < ln 2) by (rewrite <- ln_1; apply ln_increasing; lra).
  assert (X : exp (- ln 2) = / 2) by (rewrite exp_Ropp, exp_ln by lra; reflexivity).
  rewrite mean_six. destruct a, b; unfold six_pick, BackLawSpec.cat_law, mean; cbn; rewrite ?X, ?exp_0;
    unfold Rltb; repeat destruct (Rlt_dec _ _); try lra; cbn; field.
Qed.

Definition two_supp : list vec := [two_pt false; two_pt true].
Lemma two_start gp gl thr c : reached (fun _ => 0) two_fl two_supp gp gl [1; 2] thr 2 c -> (s_iter (snd c) < 1)%nat ->
  exists b1 b2 : bool, map p_lw (fst c) = [Fin (if b1 then - ln 2 else 0); Fin (if b2 then - ln 2 else 0)].
Proof.
  intros Re. induction Re as [vs k st Lv Iv|E0 e0 idx ys _ _ _ _ _ _|E0 e0 k _ IH]; intros Hj; [|cbn in Hj; lia|exact (IH Hj)].
  destruct vs as [|v1 [|v2 [|? ?]]]; try discriminate.
  assert (B : forall v, In v two_supp -> exists b, v = two_pt b) by (intros v [<-|[<-|[]]]; eexists; reflexivity).
  destruct (B v1) as [b1 ->]; [apply Iv; cbn; auto|]. destruct (B v2) as [b2 ->]; [apply Iv; cbn; auto|].
  exists b1, b2. cbn. unfold lik. rewrite !two_fl_val. cbn. destruct b1, b2; repeat f_equal; lra.
Qed.

Lemma two_multinomial gp gl thr E e : reached (fun _ => 0) two_fl two_supp gp gl [1; 2] thr 2 (E, e) -> (s_iter e < 1)%nat ->
  multinomial (joint (repeat six 2)) (s_cat six_sampler) E.
Proof.
  intros Re Hj phi. destruct (two_start _ _ _ _ Re Hj) as (b1 & b2 & LW). cbn [fst] in LW.
  assert (LE : length E = 2%nat) by (rewrite <- (map_length p_lw), LW; reflexivity).
  rewrite mean_joint, LE.
  rewrite (expect_ext _ _ (fun w => phi (map (fun x => six_pick x (map p_lw E)) w))).
  2:{ intros w Hw. apply Forall2_length_eq in Hw. rewrite repeat_length in Hw. cbn [s_cat six_sampler]. rewrite <- Hw.
      f_equal. apply (seq_nth_map (fun x => six_pick x (map p_lw E))). }
  rewrite (expect_push _ (fun x => six_pick x (map p_lw E))), map_repeat. apply expect_law. intros f.
  rewrite <- (mean_push six (fun x => six_pick x (map p_lw E))). rewrite two_cat by (exists b1, b2; exact LW).
  unfold BackLawSpec.cat_law, UnbSpec.cat_law. rewrite map_length. reflexivity.
Qed.

Example C110_example :
  let P := joint (repeat six 2) in
  let chain := fun (steps : nat) (w : key -> list nat) =>
    smc_sampled (fun k => six_point (w k)) (fun v _ => two_pr v) (fun v _ => Fin (two_fl v)) (fun _ _ _ => 0) (fun _ _ _ => 0)
      (fun k => s_cat six_sampler (w k)) (fun k => six_step (w k)) (fun k => six_u (w k)) steps [1; 2] 1 2 (KRoot 0) 1 in
  forall steps, has_mean P (fun w => exp (rval (nth 0 (clean_lnc (chain steps w)) NaN))) (3 / 4)
             /\ has_mean P (fun w => exp (rval (nth 1 (clean_lnc (chain steps w)) NaN))) (5 / 8).
Proof.
  intros P chain steps.
  set (supp := [two_pt false; two_pt true]).
  assert (L : 0 < ln 2) by (rewrite <- ln_1; apply ln_increasing; lra).
  assert (X : exp (- ln 2) = / 2) by (rewrite exp_Ropp, exp_ln by lra; reflexivity).
  assert (Np : two_pt false <> two_pt true).
  { intros C. apply (f_equal (fun v => v 0%nat)) in C. cbn in C. lra. }
  assert (Ps : forall phi, mean P (fun x => phi (six_point x)) = mean (prior_law (fun _ => 0) two_fl supp) phi).
  { intros phi. unfold P, six_point. rewrite (six_first 2 (fun x => phi (two_pt (Nat.even x)))) by lia. rewrite mean_six. cbn -[prior_law].
    unfold prior_law, mean, gsum, gam, supp. cbn. rewrite !two_fl_val. replace (- 0 - 0 * 0) with 0 by lra.
    replace (- 0 - 0 * ln 2) with 0 by lra. rewrite exp_0. field. }
  pose proof (C110_unbiased (list nat) P six_u six_step six_point (s_cat six_sampler) (fun _ => 0) two_fl two_pr supp (fun _ _ _ => 0) (fun _ _ _ => 0)
    [1; 2] 1 1 steps 2 (six_prob 2)) as H.
  assert (G : forall J, (J < 2)%nat -> has_mean P (fun w => exp (rval (nth J (clean_lnc (chain steps w)) NaN)))
    (Rsum (map (fun x => exp (- 0 - nth J [1; 2] 0 * two_fl x)) supp) / Rsum (map (fun x : vec => exp (- 0)) supp))).
  { intros J HJ. apply H; clear H.
    - intros x Hx. unfold two_pr. destruct (dec _); [reflexivity|contradiction].
    - intros x Hx. unfold two_pr. destruct (dec _); [contradiction|reflexivity].
    - repeat constructor; [|intros []]. intros [C|[]]. congruence.
    - discriminate.
    - discriminate.
    - repeat constructor; lra.
    - intros [|j] Hj; [cbn; lra|cbn in Hj; lia].
    - lia.
    - intros x. unfold six_u. pose proof (Nat.mod_upper_bound (nth 0 x 0%nat) 6 ltac:(lia)) as B. apply lt_INR in B. replace (INR 6) with 6 in B by (cbn; lra).
      pose proof (pos_INR (nth 0 x 0 mod 6)%nat). split; lra.
    - intros f. unfold P, six_step. rewrite (six_first 2 (fun x => f (fun _ => if Nat.even x then 1 else -1))) by lia.
      rewrite (six_first 2 (fun x => f (fun _ => - (if Nat.even x then 1 else -1)))) by lia. rewrite !mean_six. cbn [Nat.even].
      replace (fun _ : nat => - -1) with (fun _ : nat => 1) by (extensionality i; lra).
      change (-1) with (- (1)). lra.
    - intros j x y Hj Hx Hy. assert (j = 0%nat) by (cbn in Hj; lia). subst j. cbn [nth accept].
      apply half_uniform. destruct Hx as [<-|[<-|[]]], Hy as [<-|[<-|[]]]; rewrite !two_fl_val.
      + left. replace (0 + 1 * 0 - (0 + 1 * 0)) with 0 by lra. rewrite exp_0, Rmin_left; lra.
      + right. replace (0 + 1 * 0 - (0 + 1 * ln 2)) with (- ln 2) by lra. rewrite X, Rmin_right; lra.
      + left. replace (0 + 1 * ln 2 - (0 + 1 * 0)) with (ln 2) by lra. rewrite exp_ln, Rmin_left; lra.
      + left. replace (0 + 1 * ln 2 - (0 + 1 * ln 2)) with 0 by lra. rewrite exp_0, Rmin_left; lra.
    - intros x k lw m Hm. destruct (six_ok (fun _ => x)) as (_ & N & _). destruct (N k lw m) as (N1 & N2 & N3).
      { intros C. rewrite <- Hm, C. reflexivity. }
      rewrite Hm in N2. repeat split; assumption.
    - intros E e Re Hj _. apply (two_multinomial _ _ _ E e Re). exact Hj.
    - exact Ps.
    - intros x. unfold six_point. destruct (Nat.even _); cbn; auto.
    - exact HJ. }
  split.
  - specialize (G 0%nat ltac:(lia)). cbn [nth supp map Rsum] in G. rewrite !two_fl_val in G.
    replace (- 0 - 1 * 0) with 0 in G by lra. replace (- 0 - 1 * ln 2) with (- ln 2) in G by lra. rewrite Ropp_0, X, exp_0 in G.
    replace (3 / 4) with ((1 + (/ 2 + 0)) / (1 + (1 + 0))) by lra. exact G.
  - specialize (G 1%nat ltac:(lia)). cbn [nth supp map Rsum] in G. rewrite !two_fl_val in G.
    replace (- 0 - 2 * 0) with 0 in G by lra. replace (- 0 - 2 * ln 2) with (- ln 2 + - ln 2) in G by lra. rewrite exp_plus, Ropp_0, X, exp_0 in G.
    replace (5 / 8) with ((1 + (/ 2 * / 2 + 0)) / (1 + (1 + 0))) by lra. exact G.
Qed.
