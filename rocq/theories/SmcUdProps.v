(** C119: whole SMC runs with Underdamped as inner sampler are unbiased. *)
From Coq Require Import Reals List Arith Bool Lia Lra FunctionalExtensionality.
From Verif Require Import XR Keys LoopModel LoopSpec McmcModel McmcSpec HmcModel WeightsModel WeightsSpec SmcModel SmcSpec UnbSpec UnbProofs UnbProps KexpSpec KexpProofs
  ChainSpec ChainProofs HmcLawSpec MalaProofs FilterModel FilterSpec BackModel BackLawSpec BackLawProofs BackLawProps SmcLawModel SmcLawSpec SmcMoveProofs SmcLawProps SmcUdModel SmcUdSpec SmcUdProofs.
Import ListNotations.
Open Scope R_scope.

Section Run.
  Context {W : Type}.
  Variable P : law W.
  Variable unif : W -> R.
  Variable nrm : W -> nat -> R.
  Variable psamp : W -> vec.
  Variable cat : W -> list xr -> nat -> list nat.
  Variable prior lik : vec -> xr * vec.
  Variables d L steps : nat.
  Variable l : list R.
  Variable thr st : R.
  Variable n : nat.
  (** the ensembles recorded by the run that reads the random stream [w], with
      Underdamped's default friction (infinite) *)
  Definition ud_chain (k : key) (w : key -> W) : list (list upart) :=
    ud_smc_sampled (fun k => psamp (w k)) d (fun v _ => prior v) (fun v _ => lik v) (fun k => cat (w k)) (fun k i => nrm (w k) i)
      (fun k => unif (w k)) None L steps l thr n k st.
End Run.

Lemma chain_er {W} unif nrm (psamp : W -> vec) cat pg lg fl d L l thr st steps n w k :
  (forall x, fst (lg x) = Fin (fl x)) ->
  map (map er) (map (map u_part) (ud_chain unif nrm psamp cat pg lg d L steps l thr st n k w))
  = map (map er) (run_chain psamp cat fl (pr pg) (gp pg) (gl lg) l thr st n (inner unif nrm pg lg d L steps) after w k).
Proof.
  intros Hlik. unfold ud_chain, ud_smc_sampled, run_chain. cbv zeta. apply run_sim. apply start_sim. exact Hlik.
Qed.

Lemma nth_er (X : list (list upart)) (Y : list ensemble) J : map (map er) (map (map u_part) X) = map (map er) Y ->
  map er (map u_part (nth J X [])) = map er (nth J Y []).
Proof.
  intros H. apply (f_equal (fun c => nth J c [])) in H.
  change (@nil part) with (map er []) in H at 1 2. rewrite !(map_nth (map er)) in H.
  change (@nil part) with (map u_part []) in H at 1. rewrite (map_nth (map u_part)) in H. exact H.
Qed.

Lemma average_er (A B : ensemble) phi : map er A = map er B ->
  exp (rval (p_lnc (first A))) * weighted_mean (weights (map p_lw A)) (map (fun p => phi (p_value p)) A)
  = exp (rval (p_lnc (first B))) * weighted_mean (weights (map p_lw B)) (map (fun p => phi (p_value p)) B).
Proof.
  intros H.
  assert (H1 : map p_lw A = map p_lw B) by (rewrite <- (lw_er A), H, lw_er; reflexivity).
  assert (H2 : map (fun p => phi (p_value p)) A = map (fun p => phi (p_value p)) B).
  { apply (f_equal (map (fun p => phi (p_value p)))) in H. rewrite !map_map in H. exact H. }
  assert (H3 : p_lnc (first A) = p_lnc (first B)).
  { destruct A, B; try discriminate; [reflexivity|]. cbn in H. injection H as _ _ _ _ _ _ _ E _. exact E. }
  rewrite H1, H2, H3. reflexivity.
Qed.

(** For finitely many points where the prior is positive, momenta drawn so that
    the trajectories keep the tempered densities, and an increasing schedule
    [l], the weighted averages over the recorded ensembles, multiplied by the
    recorded normalising constants, are unbiased. *)
Theorem C119_weighted_average :
  forall (W : Type) (P : law W) (unif : W -> R) (nrm : W -> nat -> R) (psamp : W -> vec) (cat : W -> list xr -> nat -> list nat)
         (prior lik : vec -> xr * vec) (fp fl : vec -> R) (supp : list vec) (d L : nat)
         (l : list R) (thr st : R) (steps n : nat),
  prob P ->
  (forall x, In x supp -> fst (prior x) = Fin (fp x)) -> (forall x, ~ In x supp -> fst (prior x) = PInf) ->
  (forall x, fst (lik x) = Fin (fl x)) -> NoDup supp -> supp <> [] ->
  l <> [] -> List.Forall (fun t => 0 < t) l -> (forall j, (j < length l - 1)%nat -> nth j l 0 < last l 0) -> (0 < n)%nat ->
  (forall x, 0 <= unif x < 1) ->
  (forall j, (j < length l - 1)%nat ->
     let pot := tempered_pot prior lik (nth j l 0) in
     let grad := tempered_grad prior lik (nth j l 0) in
     canonical d pot grad st L P nrm supp
     /\ forall x u, In x supp ->
        let z := (x, nrm u : vec) in let z' := trajectory grad st L z in
        In (fst z') supp -> uniform_ok P unif (accept (energy d pot z) (energy d pot z'))) ->
  (forall x, categorical_ok (fun _ => cat x)) ->
  (forall E e, reached fp fl supp (fun v _ => snd (prior v)) (fun v _ => snd (lik v)) l thr n (E, e) -> (s_iter e < length l - 1)%nat ->
     resample_criterion thr E = true -> multinomial P cat E) ->
  (forall phi, mean P (fun x => phi (psamp x)) = mean (prior_law fp fl supp) phi) -> (forall x, In (psamp x) supp) ->
  forall (k : key) (J : nat) (phi : vec -> R), (J < length l)%nat ->
  has_mean P
    (fun w => let E := map u_part (nth J (ud_chain unif nrm psamp cat prior lik d L steps l thr st n k w) []) in
              exp (rval (p_lnc (first E))) * weighted_mean (weights (map p_lw E)) (map (fun p => phi (p_value p)) E))
    (Rsum (map (fun x => exp (- fp x - nth J l 0 * fl x) * phi x) supp) / Rsum (map (fun x => exp (- fp x)) supp)).
Proof.
  intros W P unif nrm psamp cat prior lik fp fl supp d L l thr st steps n HP Hin Hout Hlik HN Hne Hl Hpos Hinc Hn Hu Hmove Hc Hm Hps Hpi k J phi HJ.
  pose proof (schedule_pos l Hl Hpos) as Tp.
  assert (Hmove' : forall j, (j < length l - 1)%nat ->
     canonical d (tempered_pot prior lik (nth j l (last l 0))) (tempered_grad prior lik (nth j l (last l 0))) st L P nrm supp
     /\ forall x u, In x supp -> In (fst (trajectory (tempered_grad prior lik (nth j l (last l 0))) st L (x, nrm u))) supp ->
        uniform_ok P unif (accept (energy d (tempered_pot prior lik (nth j l (last l 0))) (x, nrm u))
          (energy d (tempered_pot prior lik (nth j l (last l 0))) (trajectory (tempered_grad prior lik (nth j l (last l 0))) st L (x, nrm u))))).
  { intros j Hj. rewrite (nth_indep l (last l 0) 0) by lia. exact (Hmove j Hj). }
  assert (H : has_mean P
    (fun w => let E := nth J (run_chain psamp cat fl (pr prior) (gp prior) (gl lik) l thr st n (inner unif nrm prior lik d L steps) after w k) [] in
              exp (rval (p_lnc (first E))) * weighted_mean (weights (map p_lw E)) (map (fun p => phi (p_value p)) E))
    (Rsum (map (fun x => exp (- fp x - nth J l 0 * fl x) * phi x) supp) / Rsum (map (fun x => exp (- fp x)) supp))).
  { refine (recorded_average P HP psamp cat fp fl (pr prior) supp (gp prior) (gl lik) l thr st n (length l - 1) Hin Hne Tp Hn Hc Hm Hps Hpi
      (inner unif nrm prior lik d L steps) (ival unif nrm prior lik d L st steps) (ikeys L steps) (Kin P nrm prior lik d L l st steps (length l - 1))
      _ _ _ _ _ after after_derived k J phi Hl Hinc HJ _).
    - intros. eapply inner_ok; eassumption.
    - apply ikeys_derived.
    - intros. eapply ival_drawn; try eassumption. intros j' x u Hj'. apply (proj2 (Hmove' j' Hj')).
    - eapply Kin_rows; eassumption.
    - eapply Kin_inv; try eassumption. intros j Hj. apply (proj1 (Hmove' j Hj)).
    - lia. }
  destruct H as [ks H]. exists ks. eapply mean_on_ext; [|exact H]. intros w. cbv zeta. symmetry. apply average_er.
  apply nth_er. apply (chain_er unif nrm psamp cat prior lik fl d L l thr st steps n w k Hlik).
Qed.
Print Assumptions C119_weighted_average.

Lemma lnc_er (A : list ensemble) : clean_lnc (map (map er) A) = clean_lnc A.
Proof. unfold clean_lnc. rewrite map_map. apply map_ext. intros [|p E]; reflexivity. Qed.

(** In particular the normalising constants left on the chain are unbiased. *)
Theorem C119_unbiased :
  forall (W : Type) (P : law W) (unif : W -> R) (nrm : W -> nat -> R) (psamp : W -> vec) (cat : W -> list xr -> nat -> list nat)
         (prior lik : vec -> xr * vec) (fp fl : vec -> R) (supp : list vec) (d L : nat)
         (l : list R) (thr st : R) (steps n : nat),
  prob P ->
  (forall x, In x supp -> fst (prior x) = Fin (fp x)) -> (forall x, ~ In x supp -> fst (prior x) = PInf) ->
  (forall x, fst (lik x) = Fin (fl x)) -> NoDup supp -> supp <> [] ->
  l <> [] -> List.Forall (fun t => 0 < t) l -> (forall j, (j < length l - 1)%nat -> nth j l 0 < last l 0) -> (0 < n)%nat ->
  (forall x, 0 <= unif x < 1) ->
  (forall j, (j < length l - 1)%nat ->
     let pot := tempered_pot prior lik (nth j l 0) in
     let grad := tempered_grad prior lik (nth j l 0) in
     canonical d pot grad st L P nrm supp
     /\ forall x u, In x supp ->
        let z := (x, nrm u : vec) in let z' := trajectory grad st L z in
        In (fst z') supp -> uniform_ok P unif (accept (energy d pot z) (energy d pot z'))) ->
  (forall x, categorical_ok (fun _ => cat x)) ->
  (forall E e, reached fp fl supp (fun v _ => snd (prior v)) (fun v _ => snd (lik v)) l thr n (E, e) -> (s_iter e < length l - 1)%nat ->
     resample_criterion thr E = true -> multinomial P cat E) ->
  (forall phi, mean P (fun x => phi (psamp x)) = mean (prior_law fp fl supp) phi) -> (forall x, In (psamp x) supp) ->
  forall (k : key) (J : nat), (J < length l)%nat ->
  has_mean P
    (fun w => exp (rval (nth J (ud_clean_lnc (ud_chain unif nrm psamp cat prior lik d L steps l thr st n k w)) NaN)))
    (Rsum (map (fun x => exp (- fp x - nth J l 0 * fl x)) supp) / Rsum (map (fun x => exp (- fp x)) supp)).
Proof.
  intros W P unif nrm psamp cat prior lik fp fl supp d L l thr st steps n HP Hin Hout Hlik HN Hne Hl Hpos Hinc Hn Hu Hmove Hc Hm Hps Hpi k J HJ.
  pose proof (schedule_pos l Hl Hpos) as Tp.
  assert (Hmove' : forall j, (j < length l - 1)%nat ->
     canonical d (tempered_pot prior lik (nth j l (last l 0))) (tempered_grad prior lik (nth j l (last l 0))) st L P nrm supp
     /\ forall x u, In x supp -> In (fst (trajectory (tempered_grad prior lik (nth j l (last l 0))) st L (x, nrm u))) supp ->
        uniform_ok P unif (accept (energy d (tempered_pot prior lik (nth j l (last l 0))) (x, nrm u))
          (energy d (tempered_pot prior lik (nth j l (last l 0))) (trajectory (tempered_grad prior lik (nth j l (last l 0))) st L (x, nrm u))))).
  { intros j Hj. rewrite (nth_indep l (last l 0) 0) by lia. exact (Hmove j Hj). }
  assert (H : has_mean P
    (fun w => exp (rval (nth J (clean_lnc (run_chain psamp cat fl (pr prior) (gp prior) (gl lik) l thr st n (inner unif nrm prior lik d L steps) after w k)) NaN)))
    (Rsum (map (fun x => exp (- fp x - nth J l 0 * fl x)) supp) / Rsum (map (fun x => exp (- fp x)) supp))).
  { refine (recorded_constant P HP psamp cat fp fl (pr prior) supp (gp prior) (gl lik) l thr st n (length l - 1) Hin Hne Tp Hn Hc Hm Hps Hpi
      (inner unif nrm prior lik d L steps) (ival unif nrm prior lik d L st steps) (ikeys L steps) (Kin P nrm prior lik d L l st steps (length l - 1))
      _ _ _ _ _ after after_derived k J Hl Hinc HJ _).
    - intros. eapply inner_ok; eassumption.
    - apply ikeys_derived.
    - intros. eapply ival_drawn; try eassumption. intros j' x u Hj'. apply (proj2 (Hmove' j' Hj')).
    - eapply Kin_rows; eassumption.
    - eapply Kin_inv; try eassumption. intros j Hj. apply (proj1 (Hmove' j Hj)).
    - lia. }
  destruct H as [ks H]. exists ks. eapply mean_on_ext; [|exact H]. intros w. cbv zeta. unfold ud_clean_lnc.
  rewrite <- lnc_er, <- (chain_er unif nrm psamp cat prior lik fl d L l thr st steps n w k Hlik), lnc_er. reflexivity.
Qed.
Print Assumptions C119_unbiased.

(** The example of C110, with momenta plus or minus one and leapfrog steps of
    size one on a flat potential in place of the random walk: half of the
    trajectories leave the support. *)
Definition flat_prior (v : vec) : xr * vec := (two_pr v, fun _ => 0).
Definition flat_lik (v : vec) : xr * vec := (Fin (two_fl v), fun _ => 0).
Definition six_mom (w : list nat) (_ : nat) : R := if Nat.even (nth 0 w 0%nat) then 1 else -1.
Definition ph (a b : R) : phase := (fun _ => a, fun _ => b).
Definition six_points : law phase :=
  let c := exp (/ 2) / 2 in
  [(ph 0 1, c); (ph 1 (-1), c); (ph 0 (-1), c); (ph (-1) 1, c); (ph 1 1, c); (ph 2 (-1), c)].

Lemma flat_trajectory t a b : trajectory (tempered_grad flat_prior flat_lik t) 1 1 (ph a b) = ph (a + b) (- b).
Proof.
  unfold trajectory, ph, verlet, vkick, vdrift, tempered_grad, flat_prior, flat_lik. cbn. f_equal; apply functional_extensionality; intros _; field.
Qed.
Lemma flat_kept t f : mean six_points (fun z => f (trajectory (tempered_grad flat_prior flat_lik t) 1 1 z)) = mean six_points f.
Proof.
  unfold six_points, mean. cbn [map Rsum fst snd]. rewrite !flat_trajectory.
  replace (0 + 1) with 1 by lra. replace (1 + -1) with 0 by lra. replace (0 + -1) with (-1) by lra. replace (-1 + 1) with 0 by lra.
  replace (1 + 1) with 2 by lra. replace (2 + -1) with 1 by lra. replace (- (-1)) with 1 by lra. change (- (1)) with (-1). ring.
Qed.
Lemma two_pr_off a : a <> 0 -> a <> 1 -> two_pr (fun _ => a) = PInf.
Proof.
  intros H0 H1. unfold two_pr. destruct (dec _) as [[C|[C|[]]]|_]; [| |reflexivity]; apply (f_equal (fun v => v 0%nat)) in C; cbn in C; congruence.
Qed.
Lemma two_pr_on b : two_pr (two_pt b) = Fin 0.
Proof. unfold two_pr. destruct (dec _) as [_|C]; [reflexivity|]. exfalso. apply C. destruct b; cbn; auto. Qed.

Lemma flat_energy t b m : energy 1 (tempered_pot flat_prior flat_lik t) (two_pt b, (fun _ => m)) = Fin (t * two_fl (two_pt b) + m * m / 2).
Proof. unfold energy, tempered_pot, flat_prior, flat_lik. cbn [fst snd]. rewrite two_pr_on. cbn. f_equal. field. Qed.
Lemma flat_energy_off t a m : a <> 0 -> a <> 1 -> energy 1 (tempered_pot flat_prior flat_lik t) (ph a m) = PInf.
Proof. intros H0 H1. unfold energy, tempered_pot, flat_prior, flat_lik, ph. cbn [fst snd]. rewrite two_pr_off by assumption. reflexivity. Qed.

Example C119_example :
  let P := joint (repeat six 2) in
  forall steps,
  let chain := ud_chain six_u six_mom six_point (s_cat six_sampler) flat_prior flat_lik 1 1 steps [1; 2] 1 1 2 (KRoot 0) in
  has_mean P (fun w => exp (rval (nth 0 (ud_clean_lnc (chain w)) NaN))) (3 / 4)
  /\ has_mean P (fun w => exp (rval (nth 1 (ud_clean_lnc (chain w)) NaN))) (5 / 8).
Proof.
  intros P steps chain.
  assert (L : 0 < ln 2) by (rewrite <- ln_1; apply ln_increasing; lra).
  assert (X : exp (- ln 2) = / 2) by (rewrite exp_Ropp, exp_ln by lra; reflexivity).
  assert (H2 : exp (/ 2) * exp (- / 2) = 1) by (rewrite <- exp_plus, Rplus_opp_r, exp_0; reflexivity).
  pose proof (C119_unbiased (list nat) P six_u six_mom six_point (s_cat six_sampler) flat_prior flat_lik (fun _ => 0) two_fl two_supp 1 1
    [1; 2] 1 1 steps 2 (six_prob 2)) as H.
  assert (G : forall J, (J < 2)%nat -> has_mean P (fun w => exp (rval (nth J (ud_clean_lnc (chain w)) NaN)))
    (Rsum (map (fun x => exp (- 0 - nth J [1; 2] 0 * two_fl x)) two_supp) / Rsum (map (fun x : vec => exp (- 0)) two_supp))).
  { intros J HJ. apply H; clear H.
    - intros x [<-|[<-|[]]]; apply two_pr_on.
    - intros x Hx. unfold flat_prior, two_pr. cbn [fst]. destruct (dec _) as [C|_]; [contradiction|reflexivity].
    - reflexivity.
    - constructor; [|constructor; [intros []|constructor]]. intros [C|[]]. apply (f_equal (fun v => v 0%nat)) in C. cbn in C. lra.
    - discriminate.
    - discriminate.
    - repeat constructor; lra.
    - intros j Hj. assert (j = 0%nat) by (cbn in Hj; lia). subst j. cbn. lra.
    - lia.
    - intros x. unfold six_u. pose proof (Nat.mod_upper_bound (nth 0 x 0%nat) 6 ltac:(lia)) as B. apply lt_INR in B. replace (INR 6) with 6 in B by (cbn; lra).
      pose proof (pos_INR (nth 0 x 0 mod 6)%nat). split; lra.
    - intros j Hj. assert (j = 0%nat) by (cbn in Hj; lia). subst j. cbn [nth]. cbv zeta.
      set (pot := tempered_pot flat_prior flat_lik 1). set (grad := tempered_grad flat_prior flat_lik 1). split.
      + exists six_points. split; [apply flat_kept|]. intros f.
        assert (Pm : forall x, mean P (fun u => f (x, six_mom u)) = (f (x, fun _ => 1) + f (x, fun _ => -1)) / 2).
        { intros x. unfold P, six_mom. rewrite (six_first 2 (fun y => f (x, fun _ => if Nat.even y then 1 else -1))) by lia. rewrite mean_six. cbn [Nat.even]. lra. }
        rewrite (Rsum_ext _ (fun x => density (pot x) * ((f (x, fun _ => 1) + f (x, fun _ => -1)) / 2))) by (intros x _; rewrite Pm; reflexivity).
        unfold six_points, mean, two_supp. cbn [map Rsum fst snd]. unfold boltzmann, pot.
        rewrite (flat_energy_off 1 (-1) 1) by lra. rewrite (flat_energy_off 1 2 (-1)) by lra.
        change (ph 0 1) with (two_pt false, (fun _ : nat => 1)). change (ph 0 (-1)) with (two_pt false, (fun _ : nat => -1)).
        change (ph 1 1) with (two_pt true, (fun _ : nat => 1)). change (ph 1 (-1)) with (two_pt true, (fun _ : nat => -1)).
        rewrite !flat_energy. unfold tempered_pot, flat_prior, flat_lik. cbn [fst snd]. rewrite !two_pr_on, !two_fl_val. cbn [xadd xmul density].
        replace (- (0 + 1 * 0)) with 0 by lra. replace (- (0 + 1 * ln 2)) with (- ln 2) by lra.
        replace (- (1 * 0 + 1 * 1 / 2)) with (- / 2) by lra. replace (- (1 * 0 + -1 * -1 / 2)) with (- / 2) by lra.
        replace (- (1 * ln 2 + 1 * 1 / 2)) with (- ln 2 + - / 2) by lra. replace (- (1 * ln 2 + -1 * -1 / 2)) with (- ln 2 + - / 2) by lra.
        rewrite !exp_plus, X, exp_0. set (e := exp (/ 2)) in *. set (e' := exp (- / 2)) in *.
        assert (E : e / 2 * e' = / 2) by (replace (e / 2 * e') with (e * e' / 2) by field; rewrite H2; field).
        transitivity (e / 2 * e' * (f (two_pt false, fun _ => 1) + f (two_pt false, fun _ => -1))
                    + e / 2 * e' * (/ 2 * (f (two_pt true, fun _ => 1) + f (two_pt true, fun _ => -1)))); [rewrite E; field|field].
      + intros x u Hx Hz'. set (z := (x, six_mom u : vec)) in *. set (z' := trajectory grad 1 1 z) in *.
        assert (B : forall v, In v two_supp -> exists b, v = two_pt b) by (intros v [<-|[<-|[]]]; eexists; reflexivity).
        destruct (B x Hx) as [b Eb]. destruct (B _ Hz') as [b' Eb'].
        set (m := if Nat.even (nth 0 u 0%nat) then 1 else -1).
        assert (Ez : z = (two_pt b, fun _ => m)) by (unfold z; rewrite Eb; reflexivity).
        assert (Ez' : z' = (two_pt b', fun _ => - m)).
        { rewrite <- Eb'. unfold z'. rewrite Ez. change (two_pt b, (fun _ : nat => m)) with (ph (if b then 1 else 0) m). unfold grad. rewrite flat_trajectory. reflexivity. }
        rewrite Ez, Ez'. unfold pot. rewrite !flat_energy, !two_fl_val. cbn [accept]. apply half_uniform.
        match goal with |- context [exp ?y] => replace y with ((if b then ln 2 else 0) - (if b' then ln 2 else 0)) by lra end.
        destruct b, b'.
        * left. rewrite Rminus_diag_eq, exp_0 by reflexivity. apply Rmin_left. lra.
        * left. rewrite Rminus_0_r, exp_ln by lra. apply Rmin_left. lra.
        * right. rewrite Rminus_0_l, X. apply Rmin_right. lra.
        * left. rewrite Rminus_diag_eq, exp_0 by reflexivity. apply Rmin_left. lra.
    - intros x k lw m Hm. destruct (six_ok (fun _ => x)) as (_ & N & _). destruct (N k lw m) as (N1 & N2 & N3).
      { intros C. rewrite <- Hm, C. reflexivity. }
      rewrite Hm in N2. repeat split; assumption.
    - intros E e Re Hj _. apply (two_multinomial _ _ _ E e Re). exact Hj.
    - intros phi. unfold P, six_point. rewrite (six_first 2 (fun x => phi (two_pt (Nat.even x)))) by lia. rewrite mean_six. cbn -[prior_law].
      unfold prior_law, mean, gsum, gam, two_supp. cbn. rewrite !two_fl_val. replace (- 0 - 0 * 0) with 0 by lra.
      replace (- 0 - 0 * ln 2) with 0 by lra. rewrite exp_0. field.
    - intros x. unfold six_point, two_supp. destruct (Nat.even _); cbn; auto.
    - exact HJ. }
  split.
  - specialize (G 0%nat ltac:(lia)). unfold two_supp in G. cbn [nth map Rsum] in G. rewrite !two_fl_val in G.
    replace (- 0 - 1 * 0) with 0 in G by lra. replace (- 0 - 1 * ln 2) with (- ln 2) in G by lra. rewrite Ropp_0, X, exp_0 in G.
    replace (3 / 4) with ((1 + (/ 2 + 0)) / (1 + (1 + 0))) by lra. exact G.
  - specialize (G 1%nat ltac:(lia)). unfold two_supp in G. cbn [nth map Rsum] in G. rewrite !two_fl_val in G.
    replace (- 0 - 2 * 0) with 0 in G by lra. replace (- 0 - 2 * ln 2) with (- ln 2 + - ln 2) in G by lra. rewrite exp_plus, Ropp_0, X, exp_0 in G.
    replace (5 / 8) with ((1 + (/ 2 * / 2 + 0)) / (1 + (1 + 0))) by lra. exact G.
Qed.
