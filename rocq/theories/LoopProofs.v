(** Proofs about the stacked while loop. *)
From Coq Require Import List Arith Bool Lia.
From Verif Require Import LoopModel LoopSpec.
Import ListNotations.

Lemma scan_length {C X O : Type} (f : C -> X -> C * O) xs :
  forall c, length (snd (scan f c xs)) = length xs.
Proof.
  induction xs as [|x xs IH]; intros c; simpl; auto.
  destruct (f c x) as [c1 o]. specialize (IH c1).
  destruct (scan f c1 xs) as [c2 os]; simpl in *. lia.
Qed.

Section P.
  Context {St Ex : Type}.
  Variable cond_fun : St -> Ex -> bool.
  Variable body_fun : St -> Ex -> St * Ex.
  Variable init_carry : St * Ex.

  Notation uk := (update_kernel cond_fun body_fun init_carry).
  Notation it := (iterate body_fun).

  (* Once the live iteration has overtaken the final iteration by more than one
     nothing is updated any more. *)
  Lemma scan_dead : forall len start c fi,
      fi + 1 < start ->
      snd (fst (scan uk (c, fi) (seq start len))) = fi.
  Proof.
    induction len as [|len IH]; intros start c fi Hlt; simpl; auto.
    unfold update_cond.
    destruct (start <=? fi + 1) eqn:E; [apply Nat.leb_le in E; lia|].
    specialize (IH (S start) init_carry fi).
    destruct (scan uk (init_carry, fi) (seq (S start) len)) as [c2 os] eqn:E2.
    simpl in *. apply IH. lia.
  Qed.

  Lemma uk_step : forall c start,
    uk (c, start) (S start)
    = if cond_fun (fst c) (snd c)
      then ((body_fun (fst c) (snd c), S start), fst (body_fun (fst c) (snd c)))
      else ((init_carry, start), fst init_carry).
  Proof.
    intros c start. unfold update_kernel, update_cond.
    replace (S start <=? start + 1) with true by (symmetry; apply Nat.leb_le; lia).
    destruct (cond_fun (fst c) (snd c)); reflexivity.
  Qed.

  Lemma scan_live : forall len start c,
      exists k, k <= len
        /\ (forall j, j < k -> cond_fun (fst (it j c)) (snd (it j c)) = true)
        /\ (k < len -> cond_fun (fst (it k c)) (snd (it k c)) = false)
        /\ snd (fst (scan uk (c, start) (seq (S start) len))) = start + k
        /\ firstn k (snd (scan uk (c, start) (seq (S start) len)))
           = map (fun j => fst (it (S j) c)) (seq 0 k).
  Proof.
    induction len as [|len IH]; intros start c.
    - exists 0. simpl. repeat split; try lia; auto.
    - cbn [seq scan]. rewrite uk_step.
      destruct (cond_fun (fst c) (snd c)) eqn:Ec.
      + destruct (IH (S start) (body_fun (fst c) (snd c))) as (k & Hk & Hlt & Hst & Hfi & Hpre).
        exists (S k).
        destruct (scan uk (body_fun (fst c) (snd c), S start) (seq (S (S start)) len)) as [c2 os] eqn:E2.
        cbn [fst snd] in *.
        split; [lia|]. split.
        { intros [|j] Hj; [exact Ec|]. rewrite iterate_succ_l. apply Hlt; lia. }
        split.
        { intros Hk2. rewrite iterate_succ_l. apply Hst; lia. }
        split; [lia|].
        cbn [firstn]. rewrite Hpre. cbn [seq map]. f_equal.
        rewrite <- seq_shift, map_map. apply map_ext. intros j.
        now rewrite (iterate_succ_l body_fun (S j)).
      + exists 0. split; [lia|]. split; [intros; lia|]. split; [intros _; exact Ec|].
        pose proof (scan_dead len (S (S start)) init_carry start) as Hd.
        destruct (scan uk (init_carry, start) (seq (S (S start)) len)) as [c2 os] eqn:E2.
        cbn [fst snd] in *. split; [rewrite Hd; lia|]. reflexivity.
  Qed.

  Lemma while_loop_stacked_correct : forall max_iter,
    exists k, stops_at cond_fun body_fun init_carry max_iter k
      /\ while_loop_stacked cond_fun body_fun init_carry max_iter
         = iterates body_fun init_carry k.
  Proof.
    intros max_iter.
    destruct (scan_live max_iter 0 init_carry) as (k & Hk & Hlt & Hst & Hfi & Hpre).
    exists k. split.
    - split; [exact Hk|]. split; [exact Hlt|].
      destruct (Nat.eq_dec k max_iter) as [->|Hne]; [now left|right; apply Hst; lia].
    - unfold while_loop_stacked, while_loop_stacked_raw.
      destruct (scan uk (init_carry, 0) (seq 1 max_iter)) as [[fv fi] st] eqn:E.
      cbn [fst snd] in *. rewrite Hfi. cbn [plus]. rewrite Hpre. reflexivity.
  Qed.

  Lemma stops_at_unique : forall m k1 k2,
    stops_at cond_fun body_fun init_carry m k1 ->
    stops_at cond_fun body_fun init_carry m k2 -> k1 = k2.
  Proof.
    intros m k1 k2 (H1 & L1 & S1) (H2 & L2 & S2).
    destruct (Nat.lt_trichotomy k1 k2) as [H|[H|H]]; auto.
    - specialize (L2 _ H). destruct S1 as [->|S1]; [lia|congruence].
    - specialize (L1 _ H). destruct S2 as [->|S2]; [lia|congruence].
  Qed.

  Lemma raw_stack_length : forall m,
    length (fst (fst (while_loop_stacked_raw cond_fun body_fun init_carry m))) = m.
  Proof.
    intros m. unfold while_loop_stacked_raw.
    pose proof (scan_length uk (seq 1 m) (init_carry, 0)) as H.
    rewrite seq_length in H.
    destruct (scan uk (init_carry, 0) (seq 1 m)) as [[fv fi] st]. simpl in *. exact H.
  Qed.

  (* the part of the raw stack after the stopping iteration *)
  Lemma scan_dead_out : forall len start c fi,
      fi + 1 < start ->
      snd (scan uk (c, fi) (seq start len)) = repeat (fst init_carry) len
      /\ (0 < len -> fst (fst (scan uk (c, fi) (seq start len))) = init_carry).
  Proof.
    induction len as [|len IH]; intros start c fi Hlt; simpl; [split; [auto|lia]|].
    unfold update_cond.
    destruct (start <=? fi + 1) eqn:E; [apply Nat.leb_le in E; lia|].
    destruct (IH (S start) init_carry fi) as [H1 H2]; [lia|].
    assert (H3 : fst (fst (scan uk (init_carry, fi) (seq (S start) len))) = init_carry).
    { destruct len; [reflexivity|apply H2; lia]. }
    destruct (scan uk (init_carry, fi) (seq (S start) len)) as [c2 os].
    simpl in *. split; [congruence|auto].
  Qed.

  Lemma scan_live_out : forall len start c,
      exists k, k <= len
        /\ (forall j, j < k -> cond_fun (fst (it j c)) (snd (it j c)) = true)
        /\ (k < len -> cond_fun (fst (it k c)) (snd (it k c)) = false)
        /\ snd (scan uk (c, start) (seq (S start) len))
           = map (fun j => fst (it (S j) c)) (seq 0 k) ++ repeat (fst init_carry) (len - k)
        /\ fst (fst (scan uk (c, start) (seq (S start) len)))
           = if k =? len then it k c else init_carry.
  Proof.
    induction len as [|len IH]; intros start c.
    - exists 0. simpl. repeat split; try lia; auto.
    - cbn [seq scan]. rewrite uk_step.
      destruct (cond_fun (fst c) (snd c)) eqn:Ec.
      + destruct (IH (S start) (body_fun (fst c) (snd c))) as (k & Hk & Hlt & Hst & Ho & Hf).
        exists (S k).
        destruct (scan uk (body_fun (fst c) (snd c), S start) (seq (S (S start)) len)) as [c2 os] eqn:E2.
        cbn [fst snd] in *.
        split; [lia|]. split.
        { intros [|j] Hj; [exact Ec|]. rewrite iterate_succ_l. apply Hlt; lia. }
        split.
        { intros Hk2. rewrite iterate_succ_l. apply Hst; lia. }
        split.
        { rewrite Ho. cbn [seq map Nat.sub app]. f_equal.
          rewrite <- seq_shift, map_map. f_equal. apply map_ext. intros j.
          now rewrite (iterate_succ_l body_fun (S j)). }
        { rewrite Hf. cbn [Nat.eqb]. rewrite iterate_succ_l. reflexivity. }
      + exists 0. split; [lia|]. split; [intros; lia|]. split; [intros _; exact Ec|].
        destruct (scan_dead_out len (S (S start)) init_carry start) as [H1 H2]; [lia|].
        assert (H3 : fst (fst (scan uk (init_carry, start) (seq (S (S start)) len))) = init_carry).
        { destruct len; [reflexivity|apply H2; lia]. }
        destruct (scan uk (init_carry, start) (seq (S (S start)) len)) as [c2 os].
        cbn [fst snd] in *. rewrite H1. split; reflexivity || exact H3.
  Qed.

  Lemma raw_correct : forall m,
    exists k, stops_at cond_fun body_fun init_carry m k
      /\ fst (fst (while_loop_stacked_raw cond_fun body_fun init_carry m))
         = iterates body_fun init_carry k ++ repeat (fst init_carry) (m - k)
      /\ snd (fst (while_loop_stacked_raw cond_fun body_fun init_carry m))
         = (if k =? m then it k init_carry else init_carry)
      /\ snd (while_loop_stacked_raw cond_fun body_fun init_carry m) = k.
  Proof.
    intros m.
    destruct (scan_live_out m 0 init_carry) as (k & Hk & Hlt & Hst & Ho & Hf).
    destruct (scan_live m 0 init_carry) as (k' & Hk' & Hlt' & Hst' & Hfi & _).
    assert (Hs : stops_at cond_fun body_fun init_carry m k).
    { split; [exact Hk|]. split; [exact Hlt|].
      destruct (Nat.eq_dec k m) as [->|Hne]; [now left|right; apply Hst; lia]. }
    assert (Hs' : stops_at cond_fun body_fun init_carry m k').
    { split; [exact Hk'|]. split; [exact Hlt'|].
      destruct (Nat.eq_dec k' m) as [->|Hne]; [now left|right; apply Hst'; lia]. }
    pose proof (stops_at_unique _ _ _ Hs Hs') as <-.
    exists k. split; [exact Hs|].
    unfold while_loop_stacked_raw.
    destruct (scan uk (init_carry, 0) (seq 1 m)) as [[fv fi] st] eqn:E.
    cbn [fst snd] in *. rewrite Ho, Hf. repeat split; auto.
  Qed.
End P.

Lemma stops_at_exists_unique {St Ex : Type} (c : St -> Ex -> bool) (b : St -> Ex -> St * Ex) i m :
  exists! k, stops_at c b i m k.
Proof.
  destruct (while_loop_stacked_correct c b i m) as (k & Hk & _).
  exists k. split; [exact Hk|]. intros k' Hk'. eapply stops_at_unique; eauto.
Qed.

Lemma run_loop_correct {St Ex : Type} (terminate : St -> Ex -> bool) update (init : St * Ex) m :
  exists k, stops_at (fun s e => negb (terminate s e)) update init m k
    /\ run_loop terminate update init m
       = map (fun i => fst (iterate update i init)) (seq 0 (S k)).
Proof.
  destruct (while_loop_stacked_correct (fun s e => negb (terminate s e)) update init m) as (k & Hk & He).
  exists k. split; [exact Hk|]. unfold run_loop. rewrite He. unfold iterates.
  cbn [seq map]. f_equal. rewrite <- seq_shift, map_map. reflexivity.
Qed.

(** Counting updates: if the extra carries an iteration counter that every
    update increases by one and the criterion is [iter >= max_iter], the run
    has exactly [1 + (max_iter - iter0)] entries. *)
Section Counter.
  Context {St Ex : Type}.
  Variable iter_of : Ex -> nat.
  Variable update : St -> Ex -> St * Ex.
  Hypothesis Hincr : forall s e, iter_of (snd (update s e)) = S (iter_of e).

  Lemma iter_counter : forall (init : St * Ex) k,
    iter_of (snd (iterate update k init)) = iter_of (snd init) + k.
  Proof.
    intros init. induction k as [|k IH]; simpl; [lia|].
    rewrite Hincr, IH. lia.
  Qed.

  Lemma run_counter : forall (init : St * Ex) m,
    run_loop (fun s e => m <=? iter_of e) update init m
    = map (fun i => fst (iterate update i init)) (seq 0 (S (m - iter_of (snd init)))).
  Proof.
    intros init m.
    destruct (run_loop_correct (fun s e => m <=? iter_of e) update init m) as (k & (Hk & Hlt & Hst) & He).
    rewrite He. do 3 f_equal.
    assert (H1 : m - iter_of (snd init) <= k).
    { destruct Hst as [->|Hst]; [lia|].
      apply negb_false_iff, Nat.leb_le in Hst. rewrite iter_counter in Hst. lia. }
    assert (H2 : k <= m - iter_of (snd init)).
    { destruct (Nat.le_gt_cases k (m - iter_of (snd init))) as [H|H]; [exact H|].
      specialize (Hlt _ H). apply negb_true_iff, Nat.leb_gt in Hlt.
      rewrite iter_counter in Hlt. lia. }
    lia.
  Qed.
End Counter.

(** leave-one-out *)
Lemma removelast_seq a n : removelast (seq a (n + 1)) = seq a n.
Proof. rewrite seq_app. simpl. apply removelast_last. Qed.

Lemma tl_seq a n : tl (seq a (n + 1)) = seq (S a) n.
Proof. rewrite Nat.add_1_r. reflexivity. Qed.

Lemma combine_seq_map {A} (f : nat * (nat * nat) -> A) : forall n a b c,
  map f (combine (seq a n) (combine (seq b n) (seq c n)))
  = map (fun i => f (a + i, (b + i, c + i))) (seq 0 n).
Proof.
  induction n as [|n IH]; intros a b c; simpl; auto.
  f_equal; [now rewrite !Nat.add_0_r|].
  rewrite IH, <- seq_shift, map_map. apply map_ext. intros i.
  now rewrite !Nat.add_succ_r, <- !Nat.add_succ_l.
Qed.

Lemma loo_nth n i : leave_one_out_indices n i = map (fun j => if j <? i then j else S j) (seq 0 n).
Proof.
  unfold leave_one_out_indices. rewrite removelast_seq, tl_seq, combine_seq_map.
  apply map_ext. intros j. simpl. reflexivity.
Qed.

Lemma loo_spec n i : i <= n -> leave_one_out_indices n i = seq 0 i ++ seq (S i) (n - i).
Proof.
  intros Hi. rewrite loo_nth.
  replace n with (i + (n - i)) at 1 by lia.
  rewrite seq_app, map_app. f_equal.
  - rewrite <- (map_id (seq 0 i)) at 2. apply map_ext_in. intros j Hj.
    apply in_seq in Hj. destruct (Nat.ltb_spec j i); [auto|lia].
  - rewrite <- seq_shift. apply map_ext_in. intros j Hj. apply in_seq in Hj.
    destruct (Nat.ltb_spec j i); [lia|auto].
Qed.

Lemma loo_filter n i : i <= n ->
  leave_one_out_indices n i = filter (fun j => negb (j =? i)) (seq 0 (S n)).
Proof.
  intros Hi. rewrite loo_spec by exact Hi.
  replace (S n) with (i + (1 + (n - i))) by lia.
  rewrite seq_app, seq_app, !filter_app. cbn [seq filter].
  replace (0 + i =? i) with true by (symmetry; apply Nat.eqb_eq; lia).
  cbn [negb app].
  assert (Hid : forall l, (forall j, In j l -> j <> i) -> filter (fun j => negb (j =? i)) l = l).
  { induction l as [|x l IH]; intros H; simpl; auto.
    destruct (Nat.eqb_spec x i) as [->|Hne]; simpl.
    - exfalso. apply (H i); [now left|auto].
    - f_equal. apply IH. intros j Hj. apply H. now right. }
  f_equal.
  - symmetry. apply Hid. intros j Hj. apply in_seq in Hj. lia.
  - rewrite <- (Hid (seq (S i) (n - i))); [now replace (0 + i + 1) with (S i) by lia|].
    intros j Hj. apply in_seq in Hj. lia.
Qed.

Lemma loo_out_of_range n i : n < i -> leave_one_out_indices n i = seq 0 n.
Proof.
  intros Hi. rewrite loo_nth. rewrite <- (map_id (seq 0 n)) at 2.
  apply map_ext_in. intros j Hj. apply in_seq in Hj.
  destruct (Nat.ltb_spec j i); [auto|lia].
Qed.
