(** Proofs about runs of rejection ABC and ABC-SMC. *)
From Coq Require Import Reals List Bool Arith ZArith Lia Lra Sorted Permutation.
From Verif Require Import XR Keys LoopModel LoopSpec LoopProofs McmcModel McmcSpec McmcProofs
  WeightsModel WeightsSpec WeightsProofs WeightsProps SmcModel SmcSpec AbcModel AbcSpec AbcProofs.
Import ListNotations.
Open Scope R_scope.

(** * Rejection ABC *)
Definition vanilla_draws (k : key) : list key := [KSplit k 4 1; KSplit k 4 2; KSplit k 4 3].
Definition vanilla_next (k : key) : key := KSplit k 4 0.
Definition vanilla_start_key (k : key) : key := KSplit (KSplit (KSplit k 2 0) 2 0) 2 0.
Definition vanilla_keys (n : nat) (k : key) : list key :=
  [KSplit k 2 1; KSplit (KSplit k 2 0) 2 1; KSplit (KSplit (KSplit k 2 0) 2 0) 2 1]
  ++ run_draws vanilla_draws vanilla_next (n - 1) (vanilla_start_key k).

Lemma vanilla_keys_length n k : (1 <= n)%nat -> length (vanilla_keys n k) = (3 * n)%nat.
Proof.
  intros Hn. unfold vanilla_keys. rewrite app_length. cbn [length].
  assert (R : forall j k0, length (run_draws vanilla_draws vanilla_next j k0) = (3 * j)%nat).
  { induction j; intros k0; [reflexivity|].
    change (run_draws vanilla_draws vanilla_next (S j) k0)
      with (vanilla_draws k0 ++ run_draws vanilla_draws vanilla_next j (vanilla_next k0)).
    rewrite app_length, IHj. cbn. lia. }
  rewrite R. lia.
Qed.

Lemma vanilla_keys_antichain n k : antichain (vanilla_keys n k).
Proof.
  apply pairwise_antichain. unfold vanilla_keys.
  destruct (run_draws_antichain vanilla_draws vanilla_next) with (n := (n - 1)%nat) (k := vanilla_start_key k) as [A B].
  - intros k0. repeat constructor;
      (eapply (split_incomparable k0 4); [|kder|kder]; congruence).
  - intros k0 x [<-|[<-|[<-|[]]]]; kder.
  - intros k0 x [<-|[<-|[<-|[]]]]; eapply (split_incomparable k0 4 _ 0); [|kder|kder| |kder|kder| |kder|kder]; congruence.
  - intros k0. kder.
  - rewrite Forall_forall in B. apply pairwise_app; auto.
    + constructor; [apply Forall_cons; [|apply Forall_cons; [|apply Forall_nil]]|].
      1-2: eapply (split_incomparable k 2 1 0); [congruence|kder|kder].
      constructor; [apply Forall_cons; [|apply Forall_nil]|].
      1: eapply (split_incomparable (KSplit k 2 0) 2 1 0); [congruence|kder|kder].
      constructor; constructor.
    + intros x y Hx Hy. specialize (B y Hy). unfold vanilla_start_key in B.
      destruct Hx as [<-|[<-|[<-|[]]]].
      * eapply (split_incomparable k 2 1 0); [congruence|kder|]. eapply derived_trans; [|exact B]. kder.
      * eapply (split_incomparable (KSplit k 2 0) 2 1 0); [congruence|kder|]. eapply derived_trans; [|exact B]. kder.
      * eapply (split_incomparable (KSplit (KSplit k 2 0) 2 0) 2 1 0); [congruence|kder|exact B].
Qed.

Fixpoint knext (j : nat) (k : key) : key := match j with O => k | S j' => vanilla_next (knext j' k) end.

Lemma vanilla_keys_nth n k i j : (S i < n)%nat -> (j < 3)%nat ->
  nth (3 * S i + j) (vanilla_keys n k) (KRoot 0) = KSplit (knext i (vanilla_start_key k)) 4 (S j).
Proof.
  intros Hi Hj. unfold vanilla_keys. rewrite app_nth2 by (cbn; lia).
  replace (3 * S i + j - length _)%nat with (3 * i + j)%nat by (cbn [length]; lia).
  assert (Hi' : (i < n - 1)%nat) by lia. clear Hi. revert i Hi'. generalize (vanilla_start_key k), (n - 1)%nat. clear n k.
  intros k m. revert k. induction m; intros k i Hi; [lia|].
  change (run_draws vanilla_draws vanilla_next (S m) k)
    with (vanilla_draws k ++ run_draws vanilla_draws vanilla_next m (vanilla_next k)).
  destruct i.
  - rewrite app_nth1 by (cbn; lia). destruct j as [|[|[|]]]; try lia; reflexivity.
  - rewrite app_nth2 by (cbn; lia). replace (3 * S i + j - length _)%nat with (3 * i + j)%nat by (cbn [length vanilla_draws]; lia).
    rewrite IHm by lia. f_equal. clear. induction i; cbn in *; congruence.
Qed.

Section VanillaRun.
  Context {Data : Type}.
  Variable prior_sample : key -> vec.
  Variable prior_potential : vec -> key -> xr.
  Variable likelihood_sample : vec -> key -> Data.
  Variable distance : Data -> xr.
  Variable thr : xr.
  Notation update := (vanilla_update prior_sample prior_potential likelihood_sample distance thr).
  Notation startup := (vanilla_startup prior_sample prior_potential likelihood_sample distance thr).

  Lemma vanilla_iterate k j :
    ie_iter (snd (iterate update j (startup k))) = 0%nat
    /\ ie_key (snd (iterate update j (startup k))) = knext j (vanilla_start_key k).
  Proof.
    induction j as [|j [IH1 IH2]]; [split; reflexivity|]. cbn [iterate knext].
    destruct (iterate update j (startup k)) as [s e]. cbn in *. rewrite IH1, IH2. split; reflexivity.
  Qed.

  Lemma vanilla_run_eq n k : (1 <= n)%nat ->
    vanilla_run prior_sample prior_potential likelihood_sample distance thr n k
    = map (fun j => fst (iterate update j (startup k))) (seq 0 n).
  Proof.
    intros Hn. unfold vanilla_run.
    destruct (run_loop_correct (fun (_ : isample) e => (n - 1 <=? ie_iter e)%nat) update (startup k) (n - 1))
      as (m & (Hm & Hc & Hs) & Hr).
    rewrite Hr. do 2 f_equal. destruct Hs as [->|Hs]; [lia|].
    apply negb_false_iff, Nat.leb_le in Hs. rewrite (proj1 (vanilla_iterate k m)) in Hs. lia.
  Qed.

  Lemma vanilla_sample n k i : (i < n)%nat ->
    let kk j := nth (3 * i + j) (vanilla_keys n k) (KRoot 0) in
    let v := prior_sample (kk 0%nat) in
    let dat := likelihood_sample v (kk 2%nat) in
    let c := ABC v (prior_potential v (kk 1%nat)) dat (distance dat) in
    fst (iterate update i (startup k)) = ISample c (vanilla_log_weight thr c).
  Proof.
    intros Hi. cbv zeta. destruct i as [|i].
    - reflexivity.
    - rewrite !vanilla_keys_nth by lia. cbn [iterate]. unfold vanilla_update at 1.
      destruct (vanilla_iterate k i) as [_ ->]. reflexivity.
  Qed.
End VanillaRun.

(** * ABC-SMC *)
Section AbcSmcRun.
  Context {Data : Type}.
  Variable categorical : key -> list xr -> nat -> list nat.
  Variable inner : xr -> (nat -> R) -> key -> abc_core (Data := Data) -> abc_core (Data := Data) * xr.
  Variable adapt_step : aensemble (Data := Data) -> (nat -> R) -> nat -> R.
  Variable next_threshold : aensemble (Data := Data) -> nat -> xr.
  Variable resample_threshold : R.
  Variable dflt : apart (Data := Data).
  Variable prior_potential : vec -> key -> xr.
  Variable likelihood_sample : vec -> key -> Data.
  Variable distance : Data -> xr.
  Hypothesis cat_ok : categorical_ok categorical.

  Notation update := (a_update categorical inner adapt_step next_threshold resample_threshold dflt).
  Notation startup := (a_startup adapt_step next_threshold prior_potential likelihood_sample distance).
  Notation resampled := (a_resampled categorical resample_threshold dflt).
  Notation moved := (a_moved categorical inner resample_threshold dflt).

  (** what holds after every [adapt] *)
  Definition adapted (E : aensemble (Data := Data)) (e : aextra) : Prop :=
    forall p, In p E -> q_thr p = ae_thr e /\ q_lw p = a_log_weight (ae_thr e) (q_core p)
                 /\ q_ess p = ess_log_weight (map q_lw E).

  Lemma adapt_adapted prev new e :
    adapted (fst (a_adapt adapt_step next_threshold prev new e)) (snd (a_adapt adapt_step next_threshold prev new e)).
  Proof.
    intros p Hp. unfold a_adapt in *. cbn [fst snd ae_thr] in *.
    rewrite map_map. cbn [q_lw]. apply in_map_iff in Hp. destruct Hp as (q & <- & Hq). cbn. auto.
  Qed.

  Lemma startup_adapted thr0 vs k st : adapted (fst (startup thr0 vs k st)) (snd (startup thr0 vs k st)).
  Proof.
    unfold a_startup.
    destruct (a_adapt _ _ _ _ _) as [out e] eqn:X. cbn [fst snd].
    pose proof (adapt_adapted (a_prestart prior_potential likelihood_sample distance thr0 vs k)
      (a_prestart prior_potential likelihood_sample distance thr0 vs k)
      (AExtra 0 (KSplit (KSplit k (length vs + 1) (length vs)) (length vs + 1) (length vs)) true thr0 st (Fin 1))) as A.
    rewrite X in A. exact A.
  Qed.

  Lemma iterate_adapted thr0 vs k st m :
    let c := iterate update m (startup thr0 vs k st) in adapted (fst c) (snd c).
  Proof.
    cbv zeta. destruct m; [apply startup_adapted|]. cbn [iterate]. apply adapt_adapted.
  Qed.

  Lemma a_resampled_length E e : length (resampled E e) = length E.
  Proof.
    unfold a_resampled. destruct (a_resample_criterion _ _); [|reflexivity].
    unfold a_resample. rewrite map_length. apply cat_ok. apply map_length.
  Qed.
  Lemma a_moved_length E e : length (moved E e) = length E.
  Proof. unfold a_moved. rewrite map_length, combine_length, seq_length, a_resampled_length. apply Nat.min_id. Qed.
  Lemma a_update_length E e : length (fst (update E e)) = length E.
  Proof. unfold a_update, a_adapt. cbn [fst]. rewrite map_length. apply a_moved_length. Qed.
  Lemma a_startup_length thr0 vs k st : length (fst (startup thr0 vs k st)) = length vs.
  Proof.
    unfold a_startup, a_adapt. cbn [fst]. rewrite map_length. unfold a_prestart.
    rewrite map_length, combine_length, seq_length. apply Nat.min_id.
  Qed.
  Lemma a_iterate_length m c : length (fst (iterate update m c)) = length (fst c).
  Proof. induction m; [reflexivity|]. cbn [iterate]. rewrite a_update_length. exact IHm. Qed.
  Lemma a_iterate_iter m c : ae_iter (snd (iterate update m c)) = (m + ae_iter (snd c))%nat.
  Proof.
    induction m; [reflexivity|]. cbn [iterate]. destruct (iterate update m c) as [E e].
    unfold a_update, a_adapt. cbn [fst snd ae_iter] in *. rewrite IHm. reflexivity.
  Qed.

  Lemma nth_moved E e i : (i < length E)%nat ->
    nth i (moved E e) dflt
    = a_forward inner (ae_thr e) (ae_step e) (KSplit (ae_key e) (length E + 2) i) (nth i (resampled E e) dflt).
  Proof.
    intros Hi. unfold a_moved.
    set (f := fun ip : nat * apart => _).
    rewrite (nth_indep _ dflt (f (0%nat, dflt)))
      by (rewrite map_length, combine_length, seq_length, a_resampled_length; lia).
    rewrite map_nth. rewrite combine_nth by (rewrite seq_length, a_resampled_length; reflexivity).
    unfold f. cbn [fst snd]. rewrite seq_nth by lia. reflexivity.
  Qed.

  Lemma nth_update E e i : (i < length E)%nat ->
    q_core (nth i (fst (update E e)) dflt) = q_core (nth i (moved E e) dflt)
    /\ q_alpha (nth i (fst (update E e)) dflt) = q_alpha (nth i (moved E e) dflt).
  Proof.
    intros Hi. unfold a_update, a_adapt. cbn [fst].
    set (f := fun p => APart _ _ _ _ _).
    rewrite (nth_indep _ dflt (f dflt)) by (rewrite map_length, a_moved_length; lia).
    rewrite map_nth. split; reflexivity.
  Qed.

  Lemma a_resampled_in E e p : In p (resampled E e) ->
    exists q, In q E /\ q_core p = q_core q
      /\ (a_resample_criterion resample_threshold E = true -> lw_ok (map q_lw E) -> finite (q_lw q))
      /\ (a_resample_criterion resample_threshold E = false -> p = q)
      /\ (a_resample_criterion resample_threshold E = true -> q_lw p = Fin 0 /\ q_ess p = Fin (INR (length E))).
  Proof.
    unfold a_resampled. destruct (a_resample_criterion _ _).
    - unfold a_resample. intros H. apply in_map_iff in H. destruct H as (i & <- & Hi).
      destruct (cat_ok (KSplit (ae_key e) (length E + 2) (length E)) (map q_lw E) (length E)) as (_ & R & W); [apply map_length|].
      rewrite Forall_forall in R. specialize (R i Hi).
      exists (nth i E dflt). split; [apply nth_In; exact R|]. split; [reflexivity|]. split; [|split; [discriminate|split; reflexivity]].
      intros _ Ok. specialize (W Ok). rewrite Forall_forall in W. specialize (W i Hi).
      rewrite (nth_indep _ NInf (q_lw dflt)) in W by (rewrite map_length; exact R).
      rewrite map_nth in W. exact W.
    - intros H. exists p. split; [exact H|]. split; [reflexivity|]. split; [discriminate|]. split; [reflexivity|discriminate].
  Qed.
End AbcSmcRun.

(** * The inner sampler keeps particles within the threshold *)
Section Inner.
  Context {Data : Type}.
  Variable normal : key -> nat -> R.
  Variable prior_potential : vec -> key -> xr.
  Variable likelihood_sample : vec -> key -> Data.
  Variable distance : Data -> xr.
  Variable uniform : key -> R.
  Hypothesis unif_ok : forall k, 0 <= uniform k < 1.

  Lemma rwabc_step (s : mstate (abc_core (Data := Data))) e :
    let r := abc_update normal prior_potential likelihood_sample distance uniform s e in
    par (snd r) = par e
    /\ (core (fst r) = core s
        \/ (xltb (a_dist (core (fst r))) (threshold (par e)) = true
            /\ exists dat, a_dist (core (fst r)) = distance dat)).
  Proof.
    unfold abc_update, mcmc_update, abc_always, abc_proposal, metropolis_correct, abc_acceptance.
    cbn [rkey iter par core alpha a_dist a_prior a_value]. cbv zeta.
    set (k := KSplit (rkey e) 2 0).
    set (v := fun i : nat => _). set (dat := likelihood_sample v _).
    destruct (xltb (Fin (uniform _)) _) eqn:X; cbn [fst snd par core a_dist]; split; try reflexivity.
    - right. split; [|exists dat; reflexivity].
      destruct (xltb (distance dat) (threshold (par e))) eqn:Y; [reflexivity|]. exfalso.
      cbn [xbool] in X.
      pose proof (unif_ok (KSplit (KSplit k 4 0) 2 1)) as U.
      destruct (xexp _); cbn in X;
        repeat match type of X with context [Rlt_dec ?a ?b] => destruct (Rlt_dec a b); try lra end;
        cbn in X; try (apply Rltb_true in X; lra).
      destruct (Rleb 1 (r * 0)) eqn:Z; cbn in X; [apply Rleb_true in Z; lra|]. apply Rltb_true in X. lra.
    - left. reflexivity.
  Qed.

  Lemma rwabc_inner_core steps thr st k c :
    let c' := fst (rwabc_inner normal prior_potential likelihood_sample distance uniform steps thr st k c) in
    c' = c \/ (xltb (a_dist c') thr = true /\ exists dat, a_dist c' = distance dat).
  Proof.
    unfold rwabc_inner. cbn [fst].
    set (init := (MState c (Fin 1), MExtra 0 k (ABCPar thr st (fun _ => 0) (fun _ => 0)))).
    assert (I : forall m, let r := iterate (abc_update normal prior_potential likelihood_sample distance uniform) m init in
              par (snd r) = par (snd init)
              /\ (core (fst r) = c \/ (xltb (a_dist (core (fst r))) thr = true /\ exists dat, a_dist (core (fst r)) = distance dat))).
    { induction m as [|m [IH1 IH2]]; cbv zeta; [split; [reflexivity|left; reflexivity]|].
      cbn [iterate]. set (r := iterate _ m init) in *.
      destruct (rwabc_step (fst r) (snd r)) as [A B]. rewrite A. split; [exact IH1|].
      rewrite IH1 in B. change (threshold (par (snd init))) with thr in B.
      destruct B as [B|B]; [rewrite B; exact IH2|right; exact B]. }
    apply (I steps).
  Qed.
End Inner.
