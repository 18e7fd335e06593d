(** Proofs about the normalising constant and the keys of SMC runs. *)
From Coq Require Import Reals List Bool Arith Lia Lra.
From Verif Require Import XR Keys LoopModel LoopSpec LoopProofs McmcModel McmcSpec McmcProofs
  WeightsModel WeightsSpec WeightsProofs BisectModel BisectProofs BisectProps SmcModel SmcSpec SmcProofs SmcRun.
Import ListNotations.
Open Scope R_scope.

Lemma weight_add a b : (a = NInf \/ finite a) -> (b = NInf \/ finite b) ->
  weight (xadd a b) = weight a * weight b /\ (xadd a b = NInf \/ finite (xadd a b)).
Proof.
  intros [->|[r ->]] [->|[s ->]]; cbn; try (split; [lra|auto]).
  split; [apply exp_plus|]. right. exists (r + s). reflexivity.
Qed.

Lemma weights_ones n : weights (repeat (Fin 0) n) = repeat 1 n.
Proof. induction n; cbn; [reflexivity|]. rewrite exp_0. change (map weight (repeat (Fin 0) n)) with (weights (repeat (Fin 0) n)). rewrite IHn. reflexivity. Qed.

(** the weights before the move, read off the recorded ensemble *)
Definition weights_used (thr : R) (E : ensemble) : list R :=
  match p_ess (first E) with
  | Fin e => if Rle_dec e (thr * INR (length E)) then repeat 1 (length E) else weights (map p_lw E)
  | NInf => repeat 1 (length E)
  | _ => weights (map p_lw E)
  end.

Lemma map_const {A B} (f : A -> B) (c : B) l : (forall x, In x l -> f x = c) -> map f l = repeat c (length l).
Proof. induction l as [|x l IH]; intros H; [reflexivity|]. cbn. rewrite (H x), IH; cbn; auto. intros; apply H; cbn; auto. Qed.

Section N.
  Variable prior : vec -> key -> xr.
  Variable categorical : key -> list xr -> nat -> list nat.
  Variable inner : R -> R -> key -> vec -> (vec * xr * xr) * key.
  Variable next : ensemble -> nat -> R.
  Variable thr : R.
  Hypothesis cat_ok : categorical_ok categorical.
  Notation update := (smc_update prior categorical inner next thr).
  Notation resampled := (resampled_ensemble categorical thr).

  Lemma resampled_lw E e :
    map p_lw (resampled E e)
    = if resample_criterion thr E then repeat (Fin 0) (length E) else map p_lw E.
  Proof.
    unfold resampled_ensemble. destruct (resample_criterion thr E); [|reflexivity].
    rewrite (map_const p_lw (Fin 0)); [rewrite resample_length by auto; reflexivity|].
    intros p Hp. destruct (resample_in _ cat_ok E _ p Hp) as (q & _ & ->). reflexivity.
  Qed.

  Lemma weights_used_eq E e : weights (map p_lw (resampled E e)) = weights_used thr E.
  Proof.
    rewrite resampled_lw. unfold resample_criterion, weights_used.
    destruct (p_ess (first E)); cbn; try (rewrite ?weights_ones; reflexivity).
    unfold Rleb. destruct (Rle_dec _ _); [apply weights_ones|reflexivity].
  Qed.

  (** the new log weights, read off the result *)
  Lemma new_lw E e :
    map p_lw (fst (update E e))
    = map (fun pq => xadd (p_lw (fst pq)) (log_weight (p_temp (first (resampled E e)))
                        (next (moved_ensemble prior categorical inner thr E e) (S (s_iter e))) (snd pq)))
          (combine (resampled E e) (moved_ensemble prior categorical inner thr E e)).
  Proof.
    unfold smc_update. cbn [fst].
    set (N := moved_ensemble prior categorical inner thr E e). set (Rs := resampled E e).
    assert (L : length Rs = length N) by (unfold Rs, N; rewrite resampled_length, moved_length by auto; reflexivity).
    set (h := fun pq : part * part => xadd _ _).
    apply nth_ext with (d := p_lw dpart) (d' := h (dpart, dpart)).
    - rewrite !map_length, adapt_length, combine_length by exact L. lia.
    - intros i Hi. rewrite map_length, adapt_length in Hi by exact L.
      rewrite !map_nth, combine_nth by exact L. rewrite nth_adapt by assumption. reflexivity.
  Qed.

  Definition increments (E E' : ensemble) : list xr :=
    map (fun p => xmul (Fin (- (p_temp (first E') - p_temp (first E)))) (p_lik p)) E'.

  Lemma first_resampled_temp E e : E <> [] -> shared E -> p_temp (first (resampled E e)) = p_temp (first E).
  Proof.
    intros Hne Sh.
    assert (H : In (first (resampled E e)) (resampled E e)) by (apply first_in, (resampled_nonempty _ _ cat_ok), Hne).
    destruct (resampled_in _ _ cat_ok E e _ H) as (q & Hq & _ & -> & _).
    apply Sh; [exact Hq|apply first_in, Hne].
  Qed.

  Lemma new_lw_increments E e : E <> [] -> shared E ->
    map p_lw (fst (update E e))
    = map (fun ab => xadd (fst ab) (snd ab)) (combine (map p_lw (resampled E e)) (increments E (fst (update E e)))).
  Proof.
    intros Hne Sh. rewrite new_lw. unfold increments.
    rewrite (update_first_temp prior categorical inner next thr cat_ok) by exact Hne.
    rewrite first_resampled_temp by auto.
    set (t := next _ _). set (t0 := p_temp (first E)).
    assert (Lk : map p_lik (fst (update E e)) = map p_lik (moved_ensemble prior categorical inner thr E e)).
    { apply nth_ext with (d := p_lik dpart) (d' := p_lik dpart).
      - rewrite !map_length, update_length, moved_length by auto. reflexivity.
      - intros i Hi. rewrite map_length, update_length in Hi by auto.
        rewrite !map_nth. unfold smc_update. cbn [fst].
        rewrite nth_adapt; [reflexivity| |]; rewrite ?moved_length, ?resampled_length by auto; auto. }
    assert (Lr : map (fun p => xmul (Fin (- (t - t0))) (p_lik p)) (fst (update E e))
                 = map (fun q => log_weight t0 t q) (moved_ensemble prior categorical inner thr E e)).
    { rewrite <- (map_map p_lik (fun x => xmul (Fin (- (t - t0))) x)), Lk, map_map. reflexivity. }
    rewrite Lr.
    set (N := moved_ensemble _ _ _ _ _ _). set (Rs := resampled E e).
    clearbody N Rs t t0. clear. revert N. induction Rs as [|p Rs IH]; intros [|q N]; cbn; try reflexivity.
    rewrite IH. reflexivity.
  Qed.

  (** C22: one step *)
  Lemma lnc_increment E e i : E <> [] -> shared E -> (i < length E)%nat ->
    lw_ok (map p_lw (resampled E e)) ->
    List.Forall (fun x => x = NInf \/ finite x) (increments E (fst (update E e))) ->
    List.Exists finite (map p_lw (fst (update E e))) ->
    p_lnc (nth i (fst (update E e)) dpart)
    = xadd (p_lnc (first E)) (Fin (ln (weighted_mean (weights_used thr E) (weights (increments E (fst (update E e))))))).
  Proof.
    intros Hne Sh Hi Ok Hinc Hex.
    pose proof (new_lw_increments E e Hne Sh) as NL.
    set (inc := increments E (fst (update E e))) in *.
    set (old := map p_lw (resampled E e)) in *.
    assert (Lo : length old = length inc).
    { unfold old, inc, increments. rewrite !map_length, resampled_length, update_length by auto. reflexivity. }
    assert (K : forall a b : list xr, length a = length b ->
       List.Forall (fun x => x = NInf \/ finite x) a -> List.Forall (fun x => x = NInf \/ finite x) b ->
       weights (map (fun ab => xadd (fst ab) (snd ab)) (combine a b))
       = map (fun wx => fst wx * snd wx) (combine (weights a) (weights b))
       /\ List.Forall (fun x => x = NInf \/ finite x) (map (fun ab => xadd (fst ab) (snd ab)) (combine a b))).
    { induction a as [|x a IH]; intros [|y b] L Fa Fb; try discriminate; [cbn; split; constructor|].
      inversion Fa; inversion Fb; subst. destruct (IH b) as [I1 I2]; auto.
      destruct (weight_add x y) as [W1 W2]; auto.
      cbn [combine map weights fst snd]. split.
      - change (map weight (map (fun ab => xadd (fst ab) (snd ab)) (combine a b)))
          with (weights (map (fun ab => xadd (fst ab) (snd ab)) (combine a b))).
        rewrite I1, W1. reflexivity.
      - constructor; auto. }
    destruct (K old inc Lo (proj1 Ok) Hinc) as [K1 K2]. rewrite <- NL in K1, K2.
    assert (NewOk : lw_ok (map p_lw (fst (update E e)))) by (split; assumption).
    assert (Lnc : p_lnc (nth i (fst (update E e)) dpart)
      = xsub (xadd (p_lnc (nth i (resampled E e) dpart)) (logsumexp (map p_lw (fst (update E e))))) (logsumexp old)).
    { rewrite new_lw. unfold smc_update. cbn [fst].
      rewrite nth_adapt; [reflexivity| |]; rewrite ?moved_length, ?resampled_length by auto; auto. }
    rewrite Lnc, (logsumexp_fin _ NewOk), (logsumexp_fin _ Ok).
    assert (Hl : p_lnc (nth i (resampled E e) dpart) = p_lnc (first E)).
    { assert (H : In (nth i (resampled E e) dpart) (resampled E e)) by (apply nth_In; rewrite resampled_length by auto; exact Hi).
      destruct (resampled_in _ _ cat_ok E e _ H) as (q & Hq & _ & _ & -> & _).
      apply Sh; [exact Hq|apply first_in, Hne]. }
    rewrite Hl. unfold weighted_mean.
    assert (W : weights_used thr E = weights old) by (symmetry; apply weights_used_eq).
    rewrite W, <- K1.
    pose proof (weights_sum_pos _ (proj2 Ok)) as P0.
    pose proof (weights_sum_pos _ (proj2 NewOk)) as P1.
    destruct (p_lnc (first E)) as [r| | |]; cbn; auto.
    f_equal. unfold Rdiv. rewrite ln_mult, ln_Rinv by (auto; apply Rinv_0_lt_compat; auto). lra.
  Qed.
End N.

(** * Keys *)
Section Keys.
  Variable steps : nat.

  (** RandomWalk inside forward_proposal: startup, [steps] updates, the prior at
      the end *)
  Definition inner_draws (pk : key) : list key :=
    KSplit pk 2 1 :: run_draws rw_draws rw_next_key steps (KSplit pk 2 0)
    ++ [Nat.iter steps rw_next_key (KSplit pk 2 0)].

  Definition smc_draws (n : nat) (k : key) : list key :=
    KSplit k (n + 2) n :: flat_map (fun i => inner_draws (KSplit k (n + 2) i)) (seq 0 n).
  Definition smc_next_key (n : nat) (k : key) : key := KSplit k (n + 2) (n + 1).

  Lemma iter_derived next : (forall k, derived k (next k)) -> forall m k, derived k (Nat.iter m next k).
  Proof.
    intros H m k. induction m; cbn; [constructor|]. eapply derived_trans; [exact IHm|apply H].
  Qed.

  Lemma iter_succ_r {A} (f : A -> A) m x : Nat.iter (S m) f x = Nat.iter m f (f x).
  Proof. induction m; [reflexivity|]. change (f (Nat.iter (S m) f x) = f (Nat.iter m f (f x))). rewrite IHm. reflexivity. Qed.

  Lemma run_draws_final draws next :
    (forall k x, In x (draws k) -> incomparable x (next k)) ->
    (forall k, derived k (next k)) ->
    forall m k x, In x (run_draws draws next m k) -> incomparable x (Nat.iter m next k).
  Proof.
    intros H3 H4. induction m; intros k x Hx; [inversion Hx|].
    rewrite iter_succ_r. cbn in Hx. apply in_app_or in Hx. destruct Hx as [Hx|Hx]; [|apply IHm; exact Hx].
    specialize (H3 k x Hx). pose proof (iter_derived next H4 m (next k)) as D.
    split; intros C.
    - destruct (derived_chain _ _ _ C D); [apply (proj1 H3)|apply (proj2 H3)]; auto.
    - apply (proj2 H3). eapply derived_trans; eauto.
  Qed.

  Lemma rw_run_all m k :
    pairwise incomparable (run_draws rw_draws rw_next_key m k)
    /\ List.Forall (derived k) (run_draws rw_draws rw_next_key m k)
    /\ forall x, In x (run_draws rw_draws rw_next_key m k) -> incomparable x (Nat.iter m rw_next_key k).
  Proof.
    assert (A1 : forall k, pairwise incomparable (rw_draws k)).
    { intros k0. repeat constructor; (eapply (split_incomparable k0 3); [|kder|kder]; congruence). }
    assert (A2 : forall k x, In x (rw_draws k) -> derived k x) by (intros k0 x [<-|[<-|[<-|[]]]]; kder).
    assert (A3 : forall k x, In x (rw_draws k) -> incomparable x (rw_next_key k)).
    { intros k0 x [<-|[<-|[<-|[]]]]; unfold rw_next_key.
      + eapply (split_incomparable k0 3 1 0); [congruence|kder|kder].
      + eapply (split_incomparable k0 3 2 0); [congruence|kder|kder].
      + eapply (split_incomparable (KSplit k0 3 0) 2 1 0); [congruence|kder|kder]. }
    assert (A4 : forall k, derived k (rw_next_key k)) by (intros; kder).
    destruct (run_draws_antichain rw_draws rw_next_key A1 A2 A3 A4 m k) as [B1 B2].
    split; [exact B1|]. split; [exact B2|]. exact (run_draws_final _ _ A3 A4 m k).
  Qed.

  Lemma inner_draws_ok pk : pairwise incomparable (inner_draws pk) /\ List.Forall (derived pk) (inner_draws pk).
  Proof.
    destruct (rw_run_all steps (KSplit pk 2 0)) as (B1 & B2 & B3).
    assert (D0 : derived (KSplit pk 2 0) (Nat.iter steps rw_next_key (KSplit pk 2 0)))
      by (apply iter_derived; intros; kder).
    assert (DA : List.Forall (derived (KSplit pk 2 0))
      (run_draws rw_draws rw_next_key steps (KSplit pk 2 0) ++ [Nat.iter steps rw_next_key (KSplit pk 2 0)])).
    { apply Forall_app. split; auto. }
    unfold inner_draws. split.
    - constructor.
      + apply Forall_impl with (2 := DA). intros a Ha.
        eapply (split_incomparable pk 2 1 0); [congruence|kder|exact Ha].
      + apply pairwise_app; [exact B1|repeat constructor|]. intros x y Hx [<-|[]]. apply B3; exact Hx.
    - constructor; [kder|]. apply Forall_impl with (2 := DA). intros a Ha.
      eapply derived_trans; [|exact Ha]. kder.
  Qed.

  Lemma smc_draws_ok n m k :
    pairwise incomparable (run_draws (smc_draws n) (smc_next_key n) m k).
  Proof.
    apply run_draws_antichain; clear k.
    - intros k. unfold smc_draws. constructor.
      + apply Forall_forall. intros x Hx. apply in_flat_map in Hx. destruct Hx as (i & Hi & Hx).
        apply in_seq in Hi. destruct (inner_draws_ok (KSplit k (n + 2) i)) as [_ D].
        rewrite Forall_forall in D. apply (split_incomparable k (n + 2) n i); [lia|kder|apply D; exact Hx].
      + assert (G : forall l, NoDup l -> pairwise incomparable (flat_map (fun i => inner_draws (KSplit k (n + 2) i)) l)).
        { induction l as [|i l IH]; intros ND; [constructor|]. inversion ND; subst.
          cbn [flat_map]. apply pairwise_app; [apply inner_draws_ok|apply IH; assumption|].
          intros x y Hx Hy. apply in_flat_map in Hy. destruct Hy as (j & Hj & Hy).
          destruct (inner_draws_ok (KSplit k (n + 2) i)) as [_ D1], (inner_draws_ok (KSplit k (n + 2) j)) as [_ D2].
          rewrite Forall_forall in D1, D2.
          apply (split_incomparable k (n + 2) i j); [congruence|apply D1; exact Hx|apply D2; exact Hy]. }
        apply G, seq_NoDup.
    - intros k x [<-|Hx]; [kder|]. apply in_flat_map in Hx. destruct Hx as (i & _ & Hx).
      destruct (inner_draws_ok (KSplit k (n + 2) i)) as [_ D]. rewrite Forall_forall in D.
      eapply derived_trans; [|apply D; exact Hx]. kder.
    - intros k x [<-|Hx]; unfold smc_next_key.
      + apply (split_incomparable k (n + 2) n (n + 1)); [lia|kder|kder].
      + apply in_flat_map in Hx. destruct Hx as (i & Hi & Hx). apply in_seq in Hi.
        destruct (inner_draws_ok (KSplit k (n + 2) i)) as [_ D]. rewrite Forall_forall in D.
        apply (split_incomparable k (n + 2) i (n + 1)); [lia|apply D; exact Hx|kder].
    - intros k. kder.
  Qed.

  (** locality *)
  Lemma rw_iter_key normal potential uniform m c :
    rkey (snd (iterate (rw_update normal potential uniform) m c)) = Nat.iter m rw_next_key (rkey (snd c)).
  Proof. induction m; [reflexivity|]. cbn [iterate]. rewrite rw_update_next_key, IHm. reflexivity. Qed.

  Lemma run_draws_prefix draws next m m' k : (m <= m')%nat ->
    incl (run_draws draws next m k) (run_draws draws next m' k).
  Proof.
    revert m' k. induction m; intros m' k H x Hx; [inversion Hx|].
    destruct m'; [lia|]. cbn in *. apply in_app_or in Hx. apply in_or_app.
    destruct Hx as [Hx|Hx]; [auto|]. right. apply (IHm m'); [lia|exact Hx].
  Qed.

  Definition agree (ks : list key) (normal normal' : key -> nat -> R) (uniform uniform' : key -> R)
    (prior prior' lik lik' : vec -> key -> xr) : Prop :=
    forall k, In k ks -> normal k = normal' k /\ uniform k = uniform' k
       /\ (forall v, prior v k = prior' v k) /\ (forall v, lik v k = lik' v k).

  Lemma rw_inner_local normal normal' uniform uniform' prior prior' lik lik' t st pk v :
    agree (inner_draws pk) normal normal' uniform uniform' prior prior' lik lik' ->
    rw_inner normal uniform prior lik steps t st pk v = rw_inner normal' uniform' prior' lik' steps t st pk v
    /\ (forall w, prior w (snd (rw_inner normal uniform prior lik steps t st pk v))
                  = prior' w (snd (rw_inner normal uniform prior lik steps t st pk v))).
  Proof.
    intros A.
    assert (S0 : rw_startup (tpot prior lik t) v pk st = rw_startup (tpot prior' lik' t) v pk st).
    { unfold rw_startup. destruct (A (KSplit pk 2 1)) as (_ & _ & Hp & Hl); [left; reflexivity|].
      unfold tpot. rewrite Hp, Hl. reflexivity. }
    set (c := rw_startup (tpot prior lik t) v pk st) in *.
    assert (It : forall m, (m <= steps)%nat ->
      iterate (rw_update normal (tpot prior lik t) uniform) m c
      = iterate (rw_update normal' (tpot prior' lik' t) uniform') m c).
    { intros m Hm.
      apply (run_local _ _ rw_draws rw_next_key _ (rw_update_next_key normal (tpot prior lik t) uniform)
             (rw_update_local normal normal' (tpot prior lik t) (tpot prior' lik' t) uniform uniform')
             steps c); [|exact Hm].
      intros k Hk. destruct (A k) as (H1 & H2 & H3 & H4).
      { right. apply in_or_app. left. exact Hk. }
      split; [exact H1|]. split; [|exact H2]. intros w. unfold tpot. rewrite H3, H4. reflexivity. }
    split.
    - unfold rw_inner. rewrite <- S0. fold c. rewrite <- (It steps (le_n _)).
      f_equal. f_equal. f_equal. f_equal. apply map_ext_in. intros j Hj. apply in_seq in Hj.
      rewrite (It (S j)) by lia. reflexivity.
    - intros w. unfold rw_inner. cbn [snd]. fold c. rewrite rw_iter_key.
      destruct (A (Nat.iter steps rw_next_key (rkey (snd c)))) as (_ & _ & Hp & _); [|apply Hp].
      right. apply in_or_app. right. left. reflexivity.
  Qed.

  Lemma smc_update_local normal normal' uniform uniform' prior prior' lik lik' cat cat' next thr n E e :
    categorical_ok cat -> length E = n ->
    agree (smc_draws n (s_key e)) normal normal' uniform uniform' prior prior' lik lik' ->
    (forall k lw m, In k (smc_draws n (s_key e)) -> cat k lw m = cat' k lw m) ->
    smc_update prior cat (rw_inner normal uniform prior lik steps) next thr E e
    = smc_update prior' cat' (rw_inner normal' uniform' prior' lik' steps) next thr E e.
  Proof.
    intros Ok Hn A C. unfold smc_update.
    assert (Rs : resampled_ensemble cat thr E e = resampled_ensemble cat' thr E e).
    { unfold resampled_ensemble. destruct (resample_criterion thr E); [|reflexivity].
      unfold resample. rewrite Hn. rewrite (C (KSplit (s_key e) (n + 2) n)); [reflexivity|left; reflexivity]. }
    assert (Mv : moved_ensemble prior cat (rw_inner normal uniform prior lik steps) thr E e
                 = moved_ensemble prior' cat' (rw_inner normal' uniform' prior' lik' steps) thr E e).
    { unfold moved_ensemble. rewrite Rs, Hn. apply map_ext_in. intros [i p] Hip.
      apply in_combine_l in Hip. cbn [fst snd].
      unfold forward_proposal.
      destruct (rw_inner_local normal normal' uniform uniform' prior prior' lik lik'
                  (p_temp (first E)) (s_step e) (KSplit (s_key e) (n + 2) i) (p_value p)) as [L1 L2].
      { intros k Hk. apply A. right. apply in_flat_map. exists i. split; [exact Hip|exact Hk]. }
      rewrite <- L1.
      destruct (rw_inner normal uniform prior lik steps (p_temp (first E)) (s_step e)
                  (KSplit (s_key e) (n + 2) i) (p_value p)) as [[[v pot] al] fk].
      cbn [snd] in L2. rewrite L2. reflexivity. }
    rewrite Rs, Mv. reflexivity.
  Qed.

  Lemma smc_iterate_local normal normal' uniform uniform' prior prior' lik lik' cat cat' next thr n m :
    categorical_ok cat ->
    forall c : ensemble * sextra, length (fst c) = n ->
    agree (run_draws (smc_draws n) (smc_next_key n) m (s_key (snd c))) normal normal' uniform uniform' prior prior' lik lik' ->
    (forall k lw m', In k (run_draws (smc_draws n) (smc_next_key n) m (s_key (snd c))) -> cat k lw m' = cat' k lw m') ->
    iterate (smc_update prior cat (rw_inner normal uniform prior lik steps) next thr) m c
    = iterate (smc_update prior' cat' (rw_inner normal' uniform' prior' lik' steps) next thr) m c.
  Proof.
    intros Ok. induction m as [|m IH]; intros c Hn A C; [reflexivity|].
    rewrite !iterate_succ_l. cbn [run_draws] in A, C.
    rewrite <- (smc_update_local normal normal' uniform uniform' prior prior' lik lik' cat cat' next thr n (fst c) (snd c)); auto.
    - apply IH.
      + rewrite update_length by exact Ok. exact Hn.
      + intros k Hk. apply A. apply in_or_app. right. unfold smc_update in Hk. cbn [snd s_key] in Hk. rewrite Hn in Hk. exact Hk.
      + intros k lw m' Hk. apply C. apply in_or_app. right. unfold smc_update in Hk. cbn [snd s_key] in Hk. rewrite Hn in Hk. exact Hk.
    - intros k Hk. apply A. apply in_or_app. auto.
    - intros k lw m' Hk. apply C. apply in_or_app. auto.
  Qed.
End Keys.
