(** Proofs about the tempered SMC samplers. *)
From Coq Require Import Reals List Bool Arith Lia Lra.
From Verif Require Import XR Keys LoopModel LoopSpec LoopProofs McmcModel McmcSpec McmcProofs
  WeightsModel WeightsSpec WeightsProofs BisectModel BisectProofs BisectProps SmcModel SmcSpec.
Import ListNotations.
Open Scope R_scope.

Lemma first_in E : E <> [] -> In (first E) E.
Proof. destruct E; [congruence|]. intros _. left. reflexivity. Qed.
Lemma first_nth E : first E = nth 0 E dpart.
Proof. destruct E; reflexivity. Qed.

Section P.
  Variable prior lik : vec -> key -> xr.
  Variable categorical : key -> list xr -> nat -> list nat.
  Variable inner : R -> R -> key -> vec -> (vec * xr * xr) * key.
  Variable next : ensemble -> nat -> R.
  Variable thr : R.
  Hypothesis cat_ok : categorical_ok categorical.

  Notation resampled := (resampled_ensemble categorical thr).
  Notation moved := (moved_ensemble prior categorical inner thr).
  Notation update := (smc_update prior categorical inner next thr).

  Lemma resample_length E k : length (resample categorical E k) = length E.
  Proof. unfold resample. rewrite map_length. apply cat_ok, map_length. Qed.

  Lemma resampled_length E e : length (resampled E e) = length E.
  Proof. unfold resampled_ensemble. destruct (resample_criterion thr E); [apply resample_length|reflexivity]. Qed.

  Lemma moved_length E e : length (moved E e) = length E.
  Proof. unfold moved_ensemble. rewrite map_length, combine_length, seq_length, resampled_length. lia. Qed.

  Lemma resample_in E k p : In p (resample categorical E k) ->
    exists q, In q E /\ p = set_weight (Fin 0) (Fin (INR (length E))) q.
  Proof.
    unfold resample. intros H. apply in_map_iff in H. destruct H as (i & <- & Hi).
    destruct (cat_ok k (map p_lw E) (length E) (map_length _ _)) as (_ & F & _).
    rewrite Forall_forall in F. specialize (F i Hi).
    exists (nth i E dpart). split; [apply nth_In; exact F|reflexivity].
  Qed.

  Lemma resampled_in E e p : In p (resampled E e) ->
    exists q, In q E /\ p_value p = p_value q /\ p_temp p = p_temp q /\ p_lnc p = p_lnc q
              /\ p_prior p = p_prior q /\ p_lik p = p_lik q /\ p_pot p = p_pot q
              /\ (p = q \/ (p_lw p = Fin 0 /\ p_ess p = Fin (INR (length E)))).
  Proof.
    unfold resampled_ensemble. destruct (resample_criterion thr E); intros H.
    - destruct (resample_in E _ p H) as (q & Hq & ->). exists q. cbn. repeat (split; [auto; reflexivity|]). right. auto.
    - exists p. repeat (split; [auto; reflexivity|]). auto.
  Qed.

  Lemma nth_moved E e i : (i < length E)%nat ->
    nth i (moved E e) dpart
    = forward_proposal prior inner (p_temp (first E)) (s_step e) (KSplit (s_key e) (length E + 2) i)
        (nth i (resampled E e) dpart).
  Proof.
    intros Hi. unfold moved_ensemble.
    set (f := fun ip : nat * part => forward_proposal prior inner (p_temp (first E)) (s_step e)
                (KSplit (s_key e) (length E + 2) (fst ip)) (snd ip)).
    rewrite (nth_indep _ dpart (f (0%nat, dpart)))
      by (rewrite map_length, combine_length, seq_length, resampled_length; lia).
    rewrite map_nth.
    rewrite combine_nth by (rewrite seq_length, resampled_length; reflexivity).
    rewrite seq_nth by exact Hi. reflexivity.
  Qed.

  Lemma moved_in E e q : In q (moved E e) ->
    exists i p, (i < length E)%nat /\ In p (resampled E e)
      /\ q = forward_proposal prior inner (p_temp (first E)) (s_step e) (KSplit (s_key e) (length E + 2) i) p.
  Proof.
    intros H. apply In_nth with (d := dpart) in H. destruct H as (i & Hi & <-).
    rewrite moved_length in Hi. exists i, (nth i (resampled E e) dpart).
    split; [exact Hi|]. split; [apply nth_In; rewrite resampled_length; exact Hi|].
    apply nth_moved; exact Hi.
  Qed.

  (** the i-th particle after adapt *)
  Lemma nth_adapt Rs N it i : length Rs = length N -> (i < length N)%nat ->
    let t := next N it in
    let p := nth i Rs dpart in
    let q := nth i N dpart in
    let lw := map (fun pq => xadd (p_lw (fst pq)) (log_weight (p_temp (first Rs)) t (snd pq))) (combine Rs N) in
    nth i (adapt next Rs N it) dpart
    = Part (p_value q) (p_prior q) (p_lik q) (xadd (p_prior q) (xmul (Fin t) (p_lik q)))
        (p_gprior q) (p_glik q) (fun i => p_gprior q i + t * p_glik q i)
        (p_alpha q) t
        (xadd (p_lw p) (log_weight (p_temp (first Rs)) t q))
        (xexp (log_ess_log_weight lw))
        (xsub (xadd (p_lnc p) (logsumexp lw)) (logsumexp (map p_lw Rs))).
  Proof.
    intros L Hi. cbv zeta. unfold adapt.
    set (lw := map _ (combine Rs N)).
    match goal with |- nth i (map ?f _) _ = _ => set (g := f) end.
    assert (Llw : length lw = length N) by (unfold lw; rewrite map_length, combine_length; lia).
    rewrite (nth_indep _ dpart (g (dpart, (dpart, NaN))))
      by (rewrite map_length, !combine_length; lia).
    rewrite map_nth. rewrite combine_nth by (rewrite combine_length; lia).
    rewrite combine_nth by lia. unfold g.
    assert (W : nth i lw NaN = xadd (p_lw (nth i Rs dpart)) (log_weight (p_temp (first Rs)) (next N it) (nth i N dpart))).
    { unfold lw.
      set (h := fun pq : part * part => xadd (p_lw (fst pq)) (log_weight (p_temp (first Rs)) (next N it) (snd pq))).
      rewrite (nth_indep _ NaN (h (dpart, dpart))) by (rewrite map_length, combine_length; lia).
      rewrite map_nth, combine_nth by exact L. reflexivity. }
    rewrite W. reflexivity.
  Qed.

  Lemma adapt_length Rs N it : length Rs = length N -> length (adapt next Rs N it) = length N.
  Proof. intros L. unfold adapt. rewrite map_length, !combine_length, map_length, combine_length. lia. Qed.

  Lemma update_length E e : length (fst (update E e)) = length E.
  Proof.
    unfold smc_update. cbn [fst]. rewrite adapt_length; [apply moved_length|].
    rewrite moved_length, resampled_length. reflexivity.
  Qed.

  Lemma update_iter E e : s_iter (snd (update E e)) = S (s_iter e).
  Proof. reflexivity. Qed.

  Lemma update_temp E e p : In p (fst (update E e)) -> p_temp p = next (moved E e) (S (s_iter e)).
  Proof.
    intros H. apply In_nth with (d := dpart) in H. destruct H as (i & Hi & <-).
    rewrite update_length in Hi. unfold smc_update. cbn [fst].
    rewrite nth_adapt; [reflexivity| |].
    - rewrite moved_length, resampled_length; reflexivity.
    - rewrite moved_length; exact Hi.
  Qed.

  Lemma shared_resampled E e : shared E -> shared (resampled E e).
  Proof.
    intros H. unfold resampled_ensemble. destruct (resample_criterion thr E); [|exact H].
    intros p q Hp Hq.
    destruct (resample_in _ _ _ Hp) as (p' & Hp' & ->), (resample_in _ _ _ Hq) as (q' & Hq' & ->).
    cbn. destruct (H p' q' Hp' Hq') as (-> & _ & ->). auto.
  Qed.

  Lemma shared_update E e : shared E -> shared (fst (update E e)).
  Proof.
    intros H p q Hp Hq.
    apply In_nth with (d := dpart) in Hp, Hq. destruct Hp as (i & Hi & <-), Hq as (j & Hj & <-).
    rewrite update_length in Hi, Hj. unfold smc_update. cbn [fst].
    rewrite !nth_adapt; rewrite ?moved_length, ?resampled_length; auto.
    cbn. split; [reflexivity|]. split; [reflexivity|].
    destruct (shared_resampled E e H (nth i (resampled E e) dpart) (nth j (resampled E e) dpart)) as (_ & _ & ->);
      [apply nth_In; rewrite resampled_length; auto .. | reflexivity].
  Qed.

  Lemma iterate_length n c : length (fst (iterate update n c)) = length (fst c).
  Proof. induction n as [|n IH]; [reflexivity|]. cbn [iterate]. rewrite update_length. exact IH. Qed.
  Lemma iterate_iter n c : s_iter (snd (iterate update n c)) = (s_iter (snd c) + n)%nat.
  Proof. induction n as [|n IH]; [cbn; lia|]. cbn [iterate]. rewrite update_iter, IH. lia. Qed.
  Lemma iterate_shared n c : shared (fst c) -> shared (fst (iterate update n c)).
  Proof. intros H. induction n as [|n IH]; [exact H|]. cbn [iterate]. apply shared_update, IH. Qed.

  (** the moved ensemble carries the old temperature *)
  Lemma moved_temp E e p : shared E -> In p (moved E e) -> p_temp p = p_temp (first E).
  Proof.
    intros Sh H. destruct (moved_in E e p H) as (i & q & _ & Hq & ->).
    unfold forward_proposal. destruct (inner _ _ _ _) as [[[v pot] al] fk]. cbn.
    destruct (resampled_in E e q Hq) as (r & Hr & _ & -> & _).
    apply Sh; [exact Hr|apply first_in]. intros ->. inversion Hr.
  Qed.

  Lemma moved_nonempty E e : E <> [] -> moved E e <> [].
  Proof. intros H C. apply H. apply length_zero_iff_nil. rewrite <- (moved_length E e), C. reflexivity. Qed.
  Lemma resampled_nonempty E e : E <> [] -> resampled E e <> [].
  Proof. intros H C. apply H. apply length_zero_iff_nil. rewrite <- (resampled_length E e), C. reflexivity. Qed.
  Lemma update_nonempty E e : E <> [] -> fst (update E e) <> [].
  Proof. intros H C. apply H. apply length_zero_iff_nil. rewrite <- (update_length E e), C. reflexivity. Qed.
  Lemma iterate_nonempty n (c : ensemble * sextra) : fst c <> [] -> fst (iterate update n c) <> [].
  Proof. intros H C. apply H. apply length_zero_iff_nil. rewrite <- (iterate_length n c), C. reflexivity. Qed.
  Lemma update_first_temp E e : E <> [] -> p_temp (first (fst (update E e))) = next (moved E e) (S (s_iter e)).
  Proof. intros H. apply (update_temp E e). apply first_in. apply update_nonempty; exact H. Qed.

  (** startup *)
  Section Startup.
    Variable gprior glik : vec -> key -> vec.
    Notation startup := (smc_startup prior lik gprior glik next).
    Notation prestart := (smc_prestart prior lik gprior glik).

    Lemma prestart_length vs k : length (prestart vs k) = length vs.
    Proof. unfold smc_prestart. rewrite map_length, combine_length, seq_length. lia. Qed.
    Lemma startup_length vs k st : length (fst (startup vs k st)) = length vs.
    Proof. unfold smc_startup. cbn [fst]. rewrite map_length, combine_length, map_length, prestart_length. lia. Qed.

    Lemma nth_prestart vs k i : (i < length vs)%nat ->
      let n := length vs in
      let v := nth i vs (fun _ => 0) in
      let kp := KSplit k (2 * n + 1) i in
      let kl := KSplit k (2 * n + 1) (n + i) in
      nth i (prestart vs k) dpart
      = Part v (prior v kp) (lik v kl) (prior v kp) (gprior v kp) (glik v kl) (gprior v kp) (Fin 1) 0 (Fin 0)
          (Fin (INR n)) (logmeanexp n (repeat (Fin 0) n)).
    Proof.
      intros Hi. cbv zeta. unfold smc_prestart.
      match goal with |- nth i (map ?f _) _ = _ => set (g := f) end.
      rewrite (nth_indep _ dpart (g (0%nat, (fun _ => 0)))) by (rewrite map_length, combine_length, seq_length, Nat.min_id; exact Hi).
      rewrite map_nth, combine_nth by apply seq_length. rewrite seq_nth by exact Hi. reflexivity.
    Qed.

    Lemma nth_startup vs k st i : (i < length vs)%nat ->
      let n := length vs in
      let E := prestart vs k in
      let p := nth i E dpart in
      let k' := KSplit k (2 * n + 1) (2 * n) in
      let t := next E 0 in
      let lw := map (fun p => xmul (Fin (- t)) (p_lik p)) E in
      nth i (fst (startup vs k st)) dpart
      = Part (p_value p) (p_prior p) (p_lik p) (tpot prior lik t (p_value p) (KSplit k' 2 1))
              (p_gprior p) (p_glik p) (fun i => p_gprior p i + t * p_glik p i) (p_alpha p)
              (p_temp p + t) (xmul (Fin (- t)) (p_lik p)) (xexp (log_ess_log_weight lw)) (logmeanexp n lw).
    Proof.
      intros Hi. cbv zeta. unfold smc_startup. cbn [fst].
      match goal with |- nth i (map ?f _) _ = _ => set (g := f) end.
      rewrite (nth_indep _ dpart (g (dpart, xmul (Fin (- next (prestart vs k) 0)) (p_lik dpart))))
        by (rewrite map_length, combine_length, map_length, prestart_length; lia).
      rewrite map_nth, combine_nth by (rewrite map_length; reflexivity).
      unfold g. cbn [fst snd].
      rewrite (map_nth (fun p => xmul (Fin (- next (prestart vs k) 0)) (p_lik p))). reflexivity.
    Qed.

    Lemma startup_temp vs k st p : In p (fst (startup vs k st)) -> p_temp p = next (prestart vs k) 0.
    Proof.
      intros H. apply In_nth with (d := dpart) in H. destruct H as (i & Hi & <-).
      rewrite startup_length in Hi. rewrite nth_startup by exact Hi. cbn. rewrite nth_prestart by exact Hi. cbn. lra.
    Qed.

    Lemma startup_shared vs k st : shared (fst (startup vs k st)).
    Proof.
      intros p q Hp Hq. rewrite (startup_temp vs k st p Hp), (startup_temp vs k st q Hq).
      apply In_nth with (d := dpart) in Hp, Hq. destruct Hp as (i & Hi & <-), Hq as (j & Hj & <-).
      rewrite startup_length in Hi, Hj. rewrite !nth_startup by assumption. cbn. auto.
    Qed.

    Lemma startup_nonempty vs k st : vs <> [] -> fst (startup vs k st) <> [].
    Proof. intros H C. apply H. apply length_zero_iff_nil. rewrite <- (startup_length vs k st), C. reflexivity. Qed.

    Lemma startup_iter vs k st : s_iter (snd (startup vs k st)) = 0%nat.
    Proof. reflexivity. Qed.
  End Startup.
End P.
