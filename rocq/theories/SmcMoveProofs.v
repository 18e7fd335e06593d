(** Proofs that SMC runs computed from keys are unbiased, for any inner sampler
    whose final value is drawn from a kernel that keeps the tempered densities. *)
From Coq Require Import Reals List Arith Bool Lia Lra FunctionalExtensionality.
From Verif Require Import XR Keys LoopModel LoopSpec LoopProofs McmcModel McmcSpec McmcProofs WeightsModel WeightsSpec SmcModel SmcSpec SmcProofs SmcRun SmcProps
  UnbSpec UnbProofs KexpSpec KexpProofs RejLawProofs ChainModel ChainSpec ChainProofs SmcLawModel SmcLawSpec.
Import ListNotations.
Open Scope R_scope.

(** * The acceptance attribute does not influence the run *)
Definition erase (p : part) : part :=
  Part (p_value p) (p_prior p) (p_lik p) (p_pot p) (p_gprior p) (p_glik p) (p_gpot p) (Fin 1) (p_temp p) (p_lw p) (p_ess p) (p_lnc p).
Definition erases (c : ensemble * sextra) : ensemble * sextra := (map erase (fst c), snd c).

Lemma erase_erase p : erase (erase p) = erase p.
Proof. reflexivity. Qed.
Lemma erases_erases c : erases (erases c) = erases c.
Proof. unfold erases. cbn [fst snd]. rewrite map_map. reflexivity. Qed.

Lemma combine_map_l {A B C} (f : A -> C) (a : list A) (b : list B) :
  combine (map f a) b = map (fun ab => (f (fst ab), snd ab)) (combine a b).
Proof. revert b. induction a as [|x a IH]; intros [|y b]; cbn; try reflexivity. rewrite IH. reflexivity. Qed.
Lemma combine_map_r {A B C} (f : B -> C) (a : list A) (b : list B) :
  combine a (map f b) = map (fun ab => (fst ab, f (snd ab))) (combine a b).
Proof. revert b. induction a as [|x a IH]; intros [|y b]; cbn; try reflexivity. rewrite IH. reflexivity. Qed.

Section Erase.
  Variable prior : vec -> key -> xr.
  Variable cat : key -> list xr -> nat -> list nat.
  Variable inner : R -> R -> key -> vec -> (vec * xr * xr) * key.
  Variable l : list R.
  Variable thr : R.
  Notation next := (scheduled l).

  Lemma first_erase E : E <> [] -> first (map erase E) = erase (first E).
  Proof. destruct E; [congruence|reflexivity]. Qed.
  Lemma first_temp E : p_temp (first (map erase E)) = p_temp (first E).
  Proof. destruct E; reflexivity. Qed.

  Lemma criterion_erase E : resample_criterion thr (map erase E) = resample_criterion thr E.
  Proof. unfold resample_criterion. rewrite map_length. destruct E; reflexivity. Qed.

  Lemma resampled_erase E e : map erase (resampled_ensemble cat thr (map erase E) e) = map erase (resampled_ensemble cat thr E e).
  Proof.
    unfold resampled_ensemble. rewrite criterion_erase, map_length. destruct (resample_criterion thr E).
    - unfold resample. cbv zeta. rewrite !map_length, map_map. change (fun x => p_lw (erase x)) with p_lw.
      rewrite !map_map. apply map_ext. intros i.
      assert (H : erase (nth i (map erase E) dpart) = erase (nth i E dpart)).
      { destruct (Nat.lt_ge_cases i (length E)) as [L|L].
        - rewrite (nth_indep _ dpart (erase dpart)) by (rewrite map_length; exact L). rewrite map_nth. reflexivity.
        - rewrite !nth_overflow by (rewrite ?map_length; exact L). reflexivity. }
      unfold set_weight, erase in *. cbn in *. injection H. intros. congruence.
    - rewrite map_map. reflexivity.
  Qed.

  Lemma adapt_erase_old Rs N it : adapt next (map erase Rs) N it = adapt next Rs N it.
  Proof.
    unfold adapt. cbv zeta. unfold scheduled. rewrite first_temp. rewrite !combine_map_l, !map_map. cbn [fst snd].
    change (fun x => p_lw (erase x)) with p_lw. cbn [erase p_lw].
    apply map_ext. intros [p [q w]]. reflexivity.
  Qed.
  Lemma adapt_erase_new Rs N it : adapt next Rs (map erase N) it = map erase (adapt next Rs N it).
  Proof.
    unfold adapt. cbv zeta. unfold scheduled. rewrite !combine_map_r, !map_map. cbn [fst snd].
    unfold log_weight. cbn [erase p_lik]. rewrite combine_map_l, combine_map_r, map_map. apply map_ext. intros [p [q w]]. reflexivity.
  Qed.

  Lemma moved_erase E e : moved_ensemble prior cat inner thr (map erase E) e = moved_ensemble prior cat inner thr E e.
  Proof.
    unfold moved_ensemble. cbv zeta. rewrite map_length, first_temp.
    set (f := fun ip : nat * part => forward_proposal prior inner (p_temp (first E)) (s_step e) (KSplit (s_key e) (length E + 2) (fst ip)) (snd ip)).
    assert (H : forall a r, map f (combine a r) = map f (combine a (map erase r))).
    { intros a r. rewrite combine_map_r, map_map. apply map_ext. intros [i p]. reflexivity. }
    rewrite H, resampled_erase, <- H. reflexivity.
  Qed.

  Lemma update_erase c : smc_update prior cat inner next thr (fst (erases c)) (snd (erases c)) = smc_update prior cat inner next thr (fst c) (snd c).
  Proof.
    destruct c as [E e]. unfold erases. cbn [fst snd]. unfold smc_update. cbv zeta. rewrite moved_erase, criterion_erase, map_length. f_equal.
    rewrite <- adapt_erase_old, resampled_erase. apply adapt_erase_old.
  Qed.

  Lemma iterate_erase J : forall c,
    erases (iterate (smc_update prior cat inner next thr) J (erases c)) = erases (iterate (smc_update prior cat inner next thr) J c).
  Proof.
    destruct J as [|J]; intros c; [apply erases_erases|]. rewrite !iterate_succ_l, update_erase. reflexivity.
  Qed.
End Erase.

Section SG.
  Context {W : Type}.
  Variable P : law W.
  Hypothesis HP : prob P.
  Variable psamp : W -> vec.
  Variable cat : W -> list xr -> nat -> list nat.
  Variable fp fl : vec -> R.
  Variable pr : vec -> xr.
  Variable supp : list vec.
  Variable gprior glik : vec -> key -> vec.
  Variable l : list R.
  Variable thr st : R.
  Variable n J0 : nat.

  Hypothesis Hin : forall x, In x supp -> pr x = Fin (fp x).
  Hypothesis Hne : supp <> [].
  Hypothesis Tpos : forall j, 0 < nth j l (last l 0).
  Hypothesis Hn : (0 < n)%nat.
  Notation T := (fun j => nth j l (last l 0)).
  Notation next := (scheduled l).
  Hypothesis Hcat : forall x, categorical_ok (fun _ => cat x).
  Hypothesis Hmult : forall E e, reached fp fl supp gprior glik l thr n (E, e) -> (s_iter e < J0)%nat ->
    resample_criterion thr E = true -> multinomial P cat E.
  Hypothesis Hps : forall phi, mean P (fun x => phi (psamp x)) = mean (prior_law fp fl supp) phi.
  Hypothesis Hpin : forall x, In (psamp x) supp.

  Definition prior' (v : vec) (_ : key) : xr := pr v.
  Definition pot (t : R) (v : vec) : xr := Fin (fp v + t * fl v).

  (** the inner sampler reading a random stream, its final value, the keys it
      draws from and the kernel it applies *)
  Variable inner : (key -> W) -> R -> R -> key -> vec -> (vec * xr * xr) * key.
  Variable ival : (key -> W) -> R -> key -> vec -> vec.
  Variable ikeys : key -> list key.
  Variable Kin : R -> vec -> vec -> R.
  Hypothesis inner_eq : forall w j k v, In v supp -> In (ival w (T j) k v) supp
    /\ exists al fk, inner w (T j) st k v = ((ival w (T j) k v, pot (T j) (ival w (T j) k v), al), fk).
  Hypothesis ikeys_derived : forall k q, In q (ikeys k) -> derived k q.
  Hypothesis ival_drawn : forall j k v, (j < J0)%nat -> In v supp ->
    drawn P (ikeys k) (fun w => ival w (T j) k v) (mean (kernel_law supp Kin (T j) v)).
  Hypothesis rows : rows_ok supp Kin.
  Hypothesis inv : invariant_ok fp fl supp Kin.
  (** the key that the inner sampler's startup leaves *)
  Variable after : key -> key.
  Hypothesis after_derived : forall k, derived k (after k).

  (** * One update *)
  Definition up (w : key -> W) := smc_update prior' (fun k => cat (w k)) (inner w) next thr.

  Lemma cat_stream w : categorical_ok (fun k => cat (w k)).
  Proof. intros k. apply (Hcat (w k) k). Qed.

  Definition given_idx (w : key -> W) (E : ensemble) (e : sextra) : list nat :=
    cat (w (KSplit (s_key e) (length E + 2) (length E))) (map p_lw E) (length E).
  Definition given_ys (w : key -> W) (t : R) (k : key) (a : nat) (Rs : ensemble) (m : nat) : list vec :=
    map (fun ip => ival w t (KSplit k m (fst ip)) (p_value (snd ip))) (combine (seq a (length Rs)) Rs).

  Lemma combine_seq_nth {A} (r : list A) d i p : In (i, p) (combine (seq 0 (length r)) r) -> (i < length r)%nat /\ nth i r d = p.
  Proof.
    intros H. assert (G : forall a r, In (i, p) (combine (seq a (length r)) r) -> (a <= i < a + length r)%nat /\ nth (i - a) r d = p).
    { clear r H. intros a r. revert a. induction r as [|x r IH]; intros a H; cbn in *; [contradiction|].
      destruct H as [H|H].
      - injection H as <- <-. rewrite Nat.sub_diag. split; [lia|reflexivity].
      - destruct (IH _ H) as [L E]. split; [lia|]. replace (i - a)%nat with (S (i - S a)) by lia. exact E. }
    destruct (G 0%nat r H) as [L E]. rewrite Nat.sub_0_r in E. split; [lia|exact E].
  Qed.

  Lemma update_moves w j E e : fine fp fl supp l j (E, e) -> s_step e = st ->
    let Rs := resampled_ensemble (indices (given_idx w E e)) thr E e in
    let ys := given_ys w (T j) (s_key e) 0 Rs (length E + 2) in
    erases (up w E e) = smc_update (prior fp) (indices (given_idx w E e)) (moves fp fl ys) next thr E e
    /\ length Rs = length E /\ (forall p, In p Rs -> In (p_value p) supp) /\ (forall y, In y ys -> In y supp).
  Proof.
    intros (Ne & Sh & G & Lw & Lnc & Te & It & Su) Hst Rs ys. cbn [fst snd] in *.
    assert (R : resampled_ensemble (fun k => cat (w k)) thr E e = Rs) by reflexivity.
    assert (LR : length Rs = length E) by (rewrite <- R; apply resampled_length, cat_stream).
    assert (SR : forall p, In p Rs -> In (p_value p) supp).
    { intros p Hp. rewrite <- R in Hp. apply resampled_in in Hp; [|apply cat_stream]. destruct Hp as (q & Hq & Hv & _). rewrite Hv. apply Su, Hq. }
    assert (SY : forall y, In y ys -> In y supp).
    { intros y Hy. apply in_map_iff in Hy. destruct Hy as ([i p] & <- & Hp). apply in_combine_r in Hp. cbn [fst snd].
      apply (inner_eq w j _ _ (SR p Hp)). }
    split; [|repeat split; assumption].
    assert (M : map erase (moved_ensemble prior' (fun k => cat (w k)) (inner w) thr E e)
                = moved_ensemble (prior fp) (indices (given_idx w E e)) (moves fp fl ys) thr E e).
    { unfold moved_ensemble. cbv zeta. rewrite R. fold Rs. rewrite map_map, <- LR. apply map_ext_in. intros [i p] Hip.
      destruct (combine_seq_nth Rs dpart i p Hip) as [Li Ei]. cbn [fst snd].
      assert (Ip : In p Rs) by (apply in_combine_r in Hip; exact Hip).
      assert (Y : nth i ys (p_value p) = ival w (T j) (KSplit (s_key e) (length E + 2) i) (p_value p)).
      { unfold ys, given_ys.
        match goal with |- nth i (map ?f _) _ = _ => rewrite (nth_indep _ (p_value p) (f (0%nat, dpart))) by (rewrite map_length, combine_length, seq_length; lia); rewrite (map_nth f) end.
        rewrite combine_nth by apply seq_length. rewrite seq_nth by exact Li. cbn [fst snd plus]. rewrite Ei. reflexivity. }
      rewrite LR. rewrite Te, Hst. unfold forward_proposal.
      destruct (inner_eq w j (KSplit (s_key e) (length E + 2) i) (p_value p) (SR p Ip)) as (I1 & al & fk & ->).
      unfold moves. rewrite Y. unfold prior'. rewrite Hin by exact I1. unfold prior, tpot, lik, pot. reflexivity. }
    unfold up, smc_update, erases. cbv zeta. cbn [fst snd]. f_equal.
    rewrite <- adapt_erase_new, M. reflexivity.
  Qed.

  Definition ykeys (k : key) (m a c : nat) : list key := flat_map (fun i => ikeys (KSplit k m i)) (seq a c).
  Lemma ykeys_in k m a c q : In q (ykeys k m a c) -> exists i, (a <= i < a + c)%nat /\ derived (KSplit k m i) q.
  Proof.
    intros H. apply in_flat_map in H. destruct H as (i & Hi & Hq). apply in_seq in Hi. exists i. split; [lia|]. apply ikeys_derived, Hq.
  Qed.

  Lemma ys_drawn j k m : (j < J0)%nat -> forall Rs a, (forall p, In p Rs -> In (p_value p) supp) ->
    drawn P (ykeys k m a (length Rs)) (fun w => given_ys w (T j) k a Rs m)
      (expect (map (fun p => kernel_law supp Kin (T j) (p_value p)) Rs)).
  Proof.
    intros Hj. induction Rs as [|p Rs IH]; intros a Su.
    - apply (drawn_const P HP (@nil vec)).
    - unfold given_ys, ykeys. cbn [length seq combine map flat_map fst snd]. apply drawn_cons.
      + apply ival_drawn; [exact Hj|]. apply Su. left. reflexivity.
      + apply IH. intros q Hq. apply Su. right. exact Hq.
      + intros q H1 H2. apply ikeys_derived in H1. apply ykeys_in in H2. destruct H2 as (i & Hi & H2).
        apply (incomp_children k m a m i ltac:(lia) q); [exact H1|exact H2].
  Qed.

  Definition skeys (k : key) : list key := [KSplit k (n + 2) n] ++ ykeys k (n + 2) 0 n.
  Lemma skeys_in k q : In q (skeys k) -> exists i, (i <= n)%nat /\ derived (KSplit k (n + 2) i) q.
  Proof.
    intros [<-|H]; [exists n; split; [lia|constructor]|]. apply ykeys_in in H. destruct H as (i & Hi & H). exists i. split; [lia|exact H].
  Qed.

  Lemma step_drawn j E e : (j < J0)%nat -> fine fp fl supp l j (E, e) -> s_step e = st -> length E = n ->
    reached fp fl supp gprior glik l thr n (E, e) ->
    drawn P (skeys (s_key e)) (fun w => erases (up w E e)) (step_mean fp fl supp Kin l thr (E, e)).
  Proof.
    intros Hj F Hst Ln Re.
    pose proof F as (Ne & Sh & G & Lw & Lnc & Te & It & Su). cbn [fst snd] in *.
    assert (Ok : forall w, categorical_ok (fun k => cat (w k))) by apply cat_stream.
    set (GG := fun (idx : list nat) (w : key -> W) =>
      smc_update (prior fp) (indices idx) (moves fp fl (given_ys w (T j) (s_key e) 0 (resampled_ensemble (indices idx) thr E e) (length E + 2))) next thr E e).
    set (NN := fun idx (phi : ensemble * sextra -> R) =>
      expect (map (fun p => kernel_law supp Kin (p_temp (first E)) (p_value p)) (resampled_ensemble (indices idx) thr E e)) (fun ys =>
        phi (smc_update (prior fp) (indices idx) (moves fp fl ys) next thr E e))).
    assert (B : forall w, drawn P (ykeys (s_key e) (n + 2) 0 n) (GG (given_idx w E e)) (NN (given_idx w E e))).
    { intros w. destruct (update_moves w j E e F Hst) as (_ & LR & SR & _). set (Rs := resampled_ensemble _ thr E e) in *.
      unfold GG, NN. fold Rs. rewrite Te.
      apply (drawn_map P _ _ (fun ys => smc_update (prior fp) (indices (given_idx w E e)) (moves fp fl ys) next thr E e)
               (expect (map (fun p => kernel_law supp Kin (T j) (p_value p)) Rs))).
      replace n with (length Rs) at 2 by lia. rewrite <- Ln. apply ys_drawn; assumption. }
    apply (drawn_ext P _ (fun w => GG (given_idx w E e) w)). { intros w. symmetry. apply (update_moves w j E e F Hst). }
    destruct (resample_criterion thr E) eqn:C.
    - apply (drawn_bind P [KSplit (s_key e) (n + 2) n] (ykeys (s_key e) (n + 2) 0 n) (fun w => given_idx w E e) GG
               (expect (repeat (cat_law E) (length E))) NN).
      + apply (drawn_law P _ _ (fun phi => mean P (fun x => phi (cat x (map p_lw E) (length E))))).
        * apply (Hmult E e Re); [rewrite It; exact Hj|exact C].
        * unfold given_idx. rewrite Ln. apply (drawn_key P HP (KSplit (s_key e) (n + 2) n) (fun x => cat x (map p_lw E) n)).
      + intros q [<-|[]] H. apply ykeys_in in H. destruct H as (i & Hi & H). apply derived_split_inv in H. lia.
      + exact B.
    - assert (EQ : forall idx idx' w, GG idx w = GG idx' w /\ forall phi, NN idx phi = NN idx' phi).
      { intros idx idx' w. unfold GG, NN, smc_update, moved_ensemble, resampled_ensemble. rewrite C. split; reflexivity. }
      apply (drawn_incl P (ykeys (s_key e) (n + 2) 0 n)). { intros q Hq. right. exact Hq. }
      destruct P as [|[x0 p0] Pt] eqn:EP; [unfold prob in HP; cbn in HP; lra|]. rewrite <- EP in *.
      specialize (B (fun _ => x0)). apply (drawn_ext P _ (GG (given_idx (fun _ => x0) E e))). { intros w. apply EQ. }
      eapply drawn_law; [|exact B]. intros phi. unfold step_mean.
      change (NN (given_idx (fun _ => x0) E e) phi = expect (repeat (cat_law E) (length E)) (fun idx => NN idx phi)).
      rewrite (expect_ext _ _ (fun _ => NN (given_idx (fun _ => x0) E e) phi)).
      + symmetry. apply expect_const. apply Forall_forall. intros d Hd. apply repeat_spec in Hd. subst d. apply cat_prob; assumption.
      + intros idx _. apply (EQ idx (given_idx (fun _ => x0) E e) (fun _ => x0)).
  Qed.

  Lemma step_next w j E e : fine fp fl supp l j (E, e) -> s_step e = st -> length E = n ->
    reached fp fl supp gprior glik l thr n (E, e) ->
    let c := erases (up w E e) in
    fine fp fl supp l (S j) c /\ s_step (snd c) = st /\ length (fst c) = n /\ reached fp fl supp gprior glik l thr n c
    /\ s_key (snd c) = KSplit (s_key e) (n + 2) (n + 1) /\ erases c = c.
  Proof.
    intros F Hst Ln Re c. destruct (update_moves w j E e F Hst) as (Ec & LR & SR & SY).
    set (Rs := resampled_ensemble (indices (given_idx w E e)) thr E e) in *.
    set (ys := given_ys w (T j) (s_key e) 0 Rs (length E + 2)) in *.
    destruct (cat_stream w (KSplit (s_key e) (length E + 2) (length E)) (map p_lw E) (length E) (map_length _ _)) as (C1 & C2 & _).
    fold (given_idx w E e) in C1, C2.
    assert (Ly : length ys = length E) by (unfold ys, given_ys; rewrite map_length, combine_length, seq_length; lia).
    split. { unfold c. rewrite Ec. apply (step_given fp fl supp l thr Tpos j E e _ ys F C1 C2 Ly SY). }
    split; [exact Hst|]. split; [unfold c, erases; cbn [fst]; rewrite map_length; unfold up; rewrite update_length by apply cat_stream; exact Ln|].
    split. { unfold c. rewrite Ec. rewrite Ln in *. apply reached_update; assumption. }
    split; [unfold c; cbn; rewrite Ln; reflexivity|apply erases_erases].
  Qed.

  Fixpoint rkeys (J : nat) (k : key) : list key :=
    match J with O => [] | S J' => skeys k ++ rkeys J' (KSplit k (n + 2) (n + 1)) end.
  Lemma rkeys_derived J : forall k q, In q (rkeys J k) -> derived k q.
  Proof.
    induction J as [|J IH]; intros k q H; [contradiction|]. cbn [rkeys] in H. apply in_app_or in H. destruct H as [H|H].
    - apply skeys_in in H. destruct H as (i & _ & H). apply (derived_trans _ (KSplit k (n + 2) i)); [repeat constructor|exact H].
    - apply IH in H. apply (derived_trans _ (KSplit k (n + 2) (n + 1))); [repeat constructor|exact H].
  Qed.

  Lemma run_drawn J : forall j E e, (j + J <= J0)%nat -> fine fp fl supp l j (E, e) -> s_step e = st -> length E = n ->
    reached fp fl supp gprior glik l thr n (E, e) -> erases (E, e) = (E, e) ->
    drawn P (rkeys J (s_key e)) (fun w => erases (iterate (up w) J (E, e))) (run_mean fp fl supp Kin l thr J (E, e)).
  Proof.
    induction J as [|J IH]; intros j E e Hj F Hst Ln Re Er.
    - cbn [iterate rkeys run_mean]. rewrite Er. apply (drawn_const P HP (E, e)).
    - cbn [rkeys].
      apply (drawn_ext P _ (fun w => erases (iterate (up w) J (erases (up w E e))))).
      { intros w. rewrite iterate_succ_l. apply iterate_erase. }
      apply (drawn_bind P (skeys (s_key e)) (rkeys J (KSplit (s_key e) (n + 2) (n + 1))) (fun w => erases (up w E e))
               (fun c w => erases (iterate (up w) J c)) (step_mean fp fl supp Kin l thr (E, e)) (run_mean fp fl supp Kin l thr J)).
      + apply (step_drawn j); try assumption. lia.
      + intros q H1 H2. apply skeys_in in H1. apply rkeys_derived in H2. destruct H1 as (i & Hi & H1).
        apply (incomp_children (s_key e) (n + 2) i (n + 2) (n + 1) ltac:(lia) q); [exact H1|exact H2].
      + intros w. destruct (step_next w j E e F Hst Ln Re) as (F' & Hst' & Ln' & Re' & K' & Er').
        destruct (erases (up w E e)) as [E' e']. cbn [fst snd] in *. rewrite <- K'. apply (IH (S j)); try assumption. lia.
  Qed.

  (** * Whole runs *)
  Definition begin (w : key -> W) (k : key) : ensemble * sextra :=
    let vs := map (fun i => psamp (w (KSplit (KSplit k 2 1) n i))) (seq 0 n) in
    (fst (smc_startup prior' (lik fl) gprior glik next vs (KSplit k 2 0) st),
     SExtra 0 (after (KSplit (KSplit k 2 0) (2 * length vs + 1) (2 * length vs))) true st).

  Lemma startup_same vs k : incl vs supp ->
    smc_startup prior' (lik fl) gprior glik next vs k st = smc_startup (prior fp) (lik fl) gprior glik next vs k st.
  Proof.
    intros I.
    assert (E : smc_prestart prior' (lik fl) gprior glik vs k = smc_prestart (prior fp) (lik fl) gprior glik vs k).
    { unfold smc_prestart. apply map_ext_in. intros [i v] H. apply in_combine_r in H. unfold prior', prior. cbn [fst snd].
      rewrite Hin by (apply I, H). reflexivity. }
    assert (V : forall p, In p (smc_prestart (prior fp) (lik fl) gprior glik vs k) -> In (p_value p) supp).
    { intros p H. apply in_map_iff in H. destruct H as ([i v] & <- & H). apply in_combine_r in H. apply I, H. }
    unfold smc_startup. cbv zeta. rewrite E. f_equal. apply map_ext_in. intros [p x] H. apply in_combine_l in H.
    cbn [fst snd]. unfold tpot, prior', prior. rewrite Hin by (apply V, H). reflexivity.
  Qed.

  Lemma start_erased vs k : erases (smc_startup (prior fp) (lik fl) gprior glik next vs k st) = smc_startup (prior fp) (lik fl) gprior glik next vs k st.
  Proof.
    unfold erases, smc_startup. cbn [fst snd]. f_equal. rewrite map_map. apply map_ext_in. intros [p x] H.
    apply in_combine_l in H. apply in_map_iff in H. destruct H as (iv & <- & _). reflexivity.
  Qed.

  Definition pkeys (k : key) (a c m : nat) : list key := map (fun i => KSplit (KSplit k 2 1) m i) (seq a c).
  Lemma prior_drawn k m c : forall a, drawn P (pkeys k a c m) (fun w => map (fun i => psamp (w (KSplit (KSplit k 2 1) m i))) (seq a c))
    (expect (repeat (prior_law fp fl supp) c)).
  Proof.
    induction c as [|c IH]; intros a.
    - apply (drawn_const P HP (@nil vec)).
    - unfold pkeys. cbn [seq map repeat]. apply (drawn_cons P [KSplit (KSplit k 2 1) m a] (pkeys k (S a) c m)).
      + apply (drawn_law P _ _ (fun phi => mean P (fun x => phi (psamp x)))); [exact Hps|]. apply (drawn_key P HP (KSplit (KSplit k 2 1) m a) psamp).
      + apply IH.
      + intros q [<-|[]] H. apply in_map_iff in H. destruct H as (i & H & Hi). apply in_seq in Hi. injection H as H. lia.
  Qed.

  (** the state left by the startup, on values [vs] *)
  Definition start_of (vs : list vec) (k : key) : ensemble * sextra :=
    (fst (smc_startup (prior fp) (lik fl) gprior glik next vs k st),
     SExtra 0 (after (KSplit k (2 * length vs + 1) (2 * length vs))) true st).

  Lemma start_of_facts vs k : length vs = n -> incl vs supp ->
    fine fp fl supp l 0 (start_of vs k) /\ length (fst (start_of vs k)) = n
    /\ reached fp fl supp gprior glik l thr n (start_of vs k) /\ erases (start_of vs k) = start_of vs k.
  Proof.
    intros L I. assert (Nv : vs <> []) by (intros C; rewrite C in L; cbn in L; lia).
    destruct (startup_fine fp fl supp gprior glik l vs k st Nv (fun v Hv => I v Hv)) as [F _].
    pose proof (start_erased vs k) as Er. apply (f_equal fst) in Er.
    split; [exact F|]. split; [unfold start_of; cbn [fst]; rewrite startup_length; exact L|].
    split; [|unfold start_of, erases in *; cbn [fst snd] in *; rewrite Er; reflexivity].
    apply (reached_key fp fl supp gprior glik l thr n (fst (smc_startup (prior fp) (lik fl) gprior glik next vs k st))
             (snd (smc_startup (prior fp) (lik fl) gprior glik next vs k st))).
    rewrite <- surjective_pairing. apply reached_start; assumption.
  Qed.

  Lemma begin_start w k : begin w k = start_of (map (fun i => psamp (w (KSplit (KSplit k 2 1) n i))) (seq 0 n)) (KSplit k 2 0).
  Proof.
    unfold begin, start_of. cbv zeta. rewrite startup_same; [reflexivity|].
    intros v Hv. apply in_map_iff in Hv. destruct Hv as (i & <- & _). apply Hpin.
  Qed.

  Theorem smc_drawn J k : (J <= J0)%nat ->
    exists ks, drawn P ks (fun w => erases (iterate (up w) J (begin w k)))
      (fun phi => expect (repeat (prior_law fp fl supp) n) (fun vs => run_mean fp fl supp Kin l thr J (start_of vs (KSplit k 2 0)) phi)).
  Proof.
    intros HJ.
    set (k1 := after (KSplit (KSplit k 2 0) (2 * n + 1) (2 * n))).
    exists (pkeys k 0 n n ++ rkeys J k1).
    set (vsw := fun w : key -> W => map (fun i => psamp (w (KSplit (KSplit k 2 1) n i))) (seq 0 n)).
    assert (Iv : forall w, incl (vsw w) supp /\ length (vsw w) = n).
    { intros w. split; [|unfold vsw; rewrite map_length, seq_length; reflexivity].
      intros v Hv. apply in_map_iff in Hv. destruct Hv as (i & <- & _). apply Hpin. }
    apply (drawn_ext P _ (fun w => erases (iterate (up w) J (start_of (vsw w) (KSplit k 2 0))))).
    { intros w. rewrite begin_start. reflexivity. }
    apply (drawn_bind P (pkeys k 0 n n) (rkeys J k1) vsw
             (fun vs w => erases (iterate (up w) J (start_of vs (KSplit k 2 0))))
             (expect (repeat (prior_law fp fl supp) n))
             (fun vs phi => run_mean fp fl supp Kin l thr J (start_of vs (KSplit k 2 0)) phi)).
    - apply prior_drawn.
    - intros q H1 H2. apply in_map_iff in H1. destruct H1 as (i & <- & _). apply rkeys_derived in H2.
      apply (incomp_children k 2 0 2 1 ltac:(lia) (KSplit (KSplit k 2 1) n i)); [|repeat constructor].
      eapply derived_trans; [|exact H2]. unfold k1. eapply derived_trans; [|apply after_derived]. repeat constructor.
    - intros w. destruct (Iv w) as [I L]. destruct (start_of_facts (vsw w) (KSplit k 2 0) L I) as (F & LL & Re & Er).
      assert (SK : s_key (snd (start_of (vsw w) (KSplit k 2 0))) = k1) by (unfold start_of; cbn [snd s_key]; rewrite L; reflexivity).
      assert (SS : s_step (snd (start_of (vsw w) (KSplit k 2 0))) = st) by reflexivity.
      destruct (start_of (vsw w) (KSplit k 2 0)) as [E e]. cbn [fst snd] in *. rewrite <- SK.
      apply (run_drawn J 0); try assumption; lia.
  Qed.

  Lemma estimate_erases phi c : estimate phi (erases c) = estimate phi c.
  Proof.
    unfold estimate, norm_constant, erases. cbn [fst snd]. rewrite !map_map. destruct (fst c); reflexivity.
  Qed.

  Theorem smc_run_mean J k phi : (J <= J0)%nat ->
    has_mean P (fun w => estimate phi (iterate (up w) J (begin w k))) (gsum fp fl supp (T J) phi / gsum fp fl supp 0 (fun _ => 1)).
  Proof.
    intros HJ. destruct (smc_drawn J k HJ) as (ks & [_ H]). exists ks.
    rewrite <- (smc_mean_estimate fp fl supp Kin gprior glik l thr Hne rows Tpos inv n J (KSplit k 2 0) st phi (estimate phi) Hn (fun _ _ => eq_refl)).
    specialize (H (estimate phi)). cbv beta in H.
    replace (smc_mean fp fl supp Kin gprior glik l thr n J (KSplit k 2 0) st (estimate phi))
      with (expect (repeat (prior_law fp fl supp) n) (fun vs => run_mean fp fl supp Kin l thr J (start_of vs (KSplit k 2 0)) (estimate phi))).
    - apply (mean_on_ext P ks (fun w => estimate phi (erases (iterate (up w) J (begin w k))))); [intros w; apply estimate_erases|exact H].
    - unfold smc_mean. apply expect_ext. intros vs Hvs. apply support_repeat in Hvs. destruct Hvs as [L1 L2].
      assert (I : incl vs supp).
      { intros v Hv. rewrite Forall_forall in L2. specialize (L2 v Hv). unfold prior_law in L2. rewrite map_map in L2.
        cbn in L2. rewrite map_id in L2. exact L2. }
      assert (Ne : vs <> []) by (destruct vs; [cbn in L1; lia|discriminate]).
      destruct (start_of_facts vs (KSplit k 2 0) L1 I) as (F & _).
      destruct (startup_fine fp fl supp gprior glik l vs (KSplit k 2 0) st Ne (fun v Hv => I v Hv)) as [F' _].
      rewrite (run_mean_estimate fp fl supp Kin l thr rows Tpos J 0%nat _ phi (estimate phi) F (fun _ _ => eq_refl)).
      rewrite (run_mean_estimate fp fl supp Kin l thr rows Tpos J 0%nat _ phi (estimate phi) F' (fun _ _ => eq_refl)).
      reflexivity.
  Qed.

  Lemma run_fine w k J : let c := erases (iterate (up w) J (begin w k)) in
    fine fp fl supp l J c /\ s_step (snd c) = st /\ length (fst c) = n /\ reached fp fl supp gprior glik l thr n c.
  Proof.
    induction J as [|J IH].
    - cbn [iterate]. rewrite begin_start.
      set (vs := map _ (seq 0 n)).
      assert (I : incl vs supp) by (intros v Hv; apply in_map_iff in Hv; destruct Hv as (i & <- & _); apply Hpin).
      assert (L : length vs = n) by (unfold vs; rewrite map_length, seq_length; reflexivity).
      destruct (start_of_facts vs (KSplit k 2 0) L I) as (F & LL & Re & Er). cbv zeta. rewrite Er.
      split; [exact F|]. split; [reflexivity|]. split; [exact LL|exact Re].
    - cbn [iterate]. cbv zeta in *. set (c := iterate (up w) J (begin w k)) in *.
      assert (E : up w (fst c) (snd c) = up w (fst (erases c)) (snd (erases c))) by (symmetry; apply update_erase).
      rewrite E. destruct (erases c) as [E1 e1]. cbn [fst snd] in *. destruct IH as (F & S & L & Re).
      destruct (step_next w J E1 e1 F S L Re) as (F' & S' & L' & Re' & _). split; [exact F'|]. split; [exact S'|]. split; [exact L'|exact Re'].
  Qed.

  Lemma norm_one w k J : norm_constant (iterate (up w) J (begin w k)) = estimate (fun _ => 1) (iterate (up w) J (begin w k)).
  Proof.
    rewrite <- estimate_erases. destruct (run_fine w k J) as (F & _). cbv zeta in F.
    rewrite <- (fine_one fp fl supp l J _ F). unfold norm_constant, erases. cbn [fst]. destruct (fst _); reflexivity.
  Qed.

  Lemma run_temp w k J : p_temp (first (fst (iterate (up w) J (begin w k)))) = T J /\ s_iter (snd (iterate (up w) J (begin w k))) = J.
  Proof.
    destruct (run_fine w k J) as (F & _). cbv zeta in F. destruct F as (_ & _ & _ & _ & _ & Te & It & _).
    unfold erases in Te, It. cbn [fst snd] in *. rewrite first_temp in Te. split; assumption.
  Qed.

  (** the recorded ensembles *)
  Lemma chain_nth w k : l <> [] -> (forall j, (j < length l - 1)%nat -> nth j l 0 < last l 0) ->
    let chain := smc_run prior' (fun k => cat (w k)) (inner w) next thr (length l) (last l 0) (begin w k) in
    length chain = length l /\ forall J, (J < length l)%nat -> nth J chain [] = fst (iterate (up w) J (begin w k)).
  Proof.
    intros Hl Hinc chain.
    destruct (run_loop_correct (fun E e => Rleb (last l 0) (p_temp (first E)) || (length l <=? s_iter e)%nat) (up w) (begin w k) (length l)) as (m & Hm & E).
    change (chain = map (fun i => fst (iterate (up w) i (begin w k))) (seq 0 (S m))) in E.
    assert (Lp : (0 < length l)%nat) by (destruct l; [congruence|cbn; lia]).
    destruct Hm as (Hle & Hgo & Hstop).
    assert (Ts : forall i, Rleb (last l 0) (p_temp (first (fst (iterate (up w) i (begin w k))))) || (length l <=? s_iter (snd (iterate (up w) i (begin w k))))%nat
                 = Rleb (last l 0) (T i) || (length l <=? i)%nat).
    { intros i. destruct (run_temp w k i) as [-> ->]. reflexivity. }
    assert (Em : m = (length l - 1)%nat).
    { destruct (Nat.lt_trichotomy m (length l - 1)) as [C|[C|C]]; [|exact C|].
      - destruct Hstop as [H|H]; [lia|]. rewrite Ts in H. exfalso. specialize (Hinc m C).
        rewrite (nth_indep l (last l 0) 0) in H by lia. unfold Rleb in H. destruct (Rle_dec _ _); [lra|].
        cbn in H. destruct (Nat.leb_spec (length l) m); [lia|discriminate].
      - exfalso. specialize (Hgo (length l - 1)%nat C). rewrite Ts in Hgo.
        assert (E1 : nth (length l - 1) l (last l 0) = last l 0).
        { clear. induction l as [|a r IH]; [reflexivity|]. destruct r as [|b r]; [reflexivity|].
          cbn [length] in *. replace (S (S (length r)) - 1)%nat with (S (S (length r) - 1)) by lia. exact IH. }
        rewrite E1 in Hgo. unfold Rleb in Hgo. destruct (Rle_dec _ _); [discriminate|lra]. }
    rewrite E, map_length, seq_length. split; [lia|]. intros J HJ.
    set (f := fun i => fst (iterate (up w) i (begin w k))).
    rewrite (nth_indep _ [] (f 0%nat)) by (rewrite map_length, seq_length; lia). rewrite (map_nth f), seq_nth by lia. reflexivity.
  Qed.

  (** the recorded weighted averages and normalising constants are unbiased *)
  Definition run_chain (w : key -> W) (k : key) : list ensemble :=
    smc_run prior' (fun k => cat (w k)) (inner w) next thr (length l) (last l 0) (begin w k).

  Theorem recorded_average k J phi : l <> [] -> (forall j, (j < length l - 1)%nat -> nth j l 0 < last l 0) -> (J < length l)%nat -> (J <= J0)%nat ->
    has_mean P
      (fun w => let E := nth J (run_chain w k) [] in
                exp (rval (p_lnc (first E))) * weighted_mean (weights (map p_lw E)) (map (fun p => phi (p_value p)) E))
      (Rsum (map (fun x => exp (- fp x - nth J l 0 * fl x) * phi x) supp) / Rsum (map (fun x => exp (- fp x)) supp)).
  Proof.
    intros Hl Hinc HJ HJ0. destruct (smc_run_mean J k phi HJ0) as [ks H]. exists ks.
    assert (V : gsum fp fl supp (nth J l (last l 0)) phi / gsum fp fl supp 0 (fun _ => 1)
              = Rsum (map (fun x => exp (- fp x - nth J l 0 * fl x) * phi x) supp) / Rsum (map (fun x => exp (- fp x)) supp)).
    { rewrite (nth_indep l (last l 0) 0) by exact HJ. unfold gsum, gam. f_equal. apply Rsum_ext. intros x _. rewrite Rmult_1_r. f_equal. ring. }
    rewrite <- V. eapply mean_on_ext; [|exact H]. intros w. cbv zeta.
    destruct (chain_nth w k Hl Hinc) as [_ Hc']. cbv zeta in Hc'. unfold run_chain. rewrite (Hc' J HJ). reflexivity.
  Qed.

  Theorem recorded_constant k J : l <> [] -> (forall j, (j < length l - 1)%nat -> nth j l 0 < last l 0) -> (J < length l)%nat -> (J <= J0)%nat ->
    has_mean P (fun w => exp (rval (nth J (clean_lnc (run_chain w k)) NaN)))
      (Rsum (map (fun x => exp (- fp x - nth J l 0 * fl x)) supp) / Rsum (map (fun x => exp (- fp x)) supp)).
  Proof.
    intros Hl Hinc HJ HJ0. destruct (recorded_average k J (fun _ => 1) Hl Hinc HJ HJ0) as [ks H]. exists ks.
    rewrite (Rsum_ext (fun x => exp (- fp x - nth J l 0 * fl x)) (fun x => exp (- fp x - nth J l 0 * fl x) * 1)) by (intros; ring).
    eapply mean_on_ext; [|exact H]. intros w. cbv zeta.
    destruct (chain_nth w k Hl Hinc) as [L Hc']. cbv zeta in L, Hc'. fold (run_chain w k) in L, Hc'.
    unfold clean_lnc.
    set (f := fun E => p_lnc (first E)). rewrite (nth_indep _ NaN (f [])) by (rewrite map_length, L; exact HJ). rewrite (map_nth f). unfold f.
    rewrite (Hc' J HJ). symmetry. apply (norm_one w k J).
  Qed.
End SG.
