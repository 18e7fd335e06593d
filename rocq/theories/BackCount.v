(** Evaluation counts of the rejection loop and what a round keeps: C66. *)
From Coq Require Import Reals List Arith Bool Lia Lra.
From Verif Require Import XR Keys HmcModel SmcModel FilterModel FilterProofs BackModel BackSpec BackProofs.
Import ListNotations.
Open Scope R_scope.

Section Count.
  Context {A : Type}.
  Variable da : A.
  Variable pick : key -> A.
  Variable pick_n : key -> nat -> list A.
  Variable dens : nat -> A -> xr.
  Variable full : nat -> key -> A.
  Variable uniform : key -> R.
  Variable uniform_n : key -> nat -> list R.
  Variable inflation : R.
  Variables (n n0 : nat) (k : key) (maxrej : nat) (init_bound : R).
  Hypothesis Hpick : length (pick_n (KSplit k 3 0) n) = n.
  Hypothesis Hunif : length (uniform_n (KSplit k 3 1) n) = n.

  Definition drawn (i : nat) (a : A) : Prop :=
    a = nth i (pick_n (KSplit k 3 0) n) da \/ exists k', derived (basekey n k i) k' /\ a = pick (KSplit k' 3 1).

  Definition cinv (st : rstate (A := A)) : Prop :=
    length (not_yet st) = n /\ length (sampled st) = n /\ length (rkeys st) = n
    /\ (forall i, (i < n)%nat -> drawn i (nth i (sampled st) da))
    /\ (forall i, (i < n)%nat -> derived (basekey n k i) (nth i (rkeys st) (KRoot 0)))
    /\ (1 <= riter st)%nat
    /\ (n + (riter st - 1) <= evals st <= n * riter st \/ n = 0 /\ evals st = 0)%nat.

  Lemma round_cinv st : cinv st -> continue maxrej st = true -> cinv (proposal_all pick dens uniform inflation st).
  Proof.
    clear Hpick Hunif. intros (L1 & L2 & L3 & Hs & Hk & Hi & He) Hc. unfold proposal_all.
    set (tup := map4 _ 0 _ _ _).
    assert (Lt : length tup = n) by (unfold tup; rewrite map4_length; lia).
    set (dtup := (da, Fin 0, false, KRoot 0)).
    assert (Nt : forall i, (i < n)%nat -> nth i tup dtup
      = proposal_cond pick dens uniform (bound st) i (nth i (not_yet st) true) (nth i (sampled st) da) (nth i (rkeys st) (KRoot 0))).
    { intros i Hi'. unfold tup. rewrite (map4_nth _ (not_yet st) true da (KRoot 0)) by lia. reflexivity. }
    unfold cinv. cbn [not_yet sampled rkeys riter evals].
    split; [destruct (xltb _ _); rewrite map_length; exact Lt|].
    split; [rewrite map_length; exact Lt|]. split; [rewrite map_length; exact Lt|].
    split; [|split; [|split; [lia|]]].
    - intros i Hi'. rewrite (nth_map_in _ _ i dtup) by lia. rewrite Nt by exact Hi'. unfold proposal_cond.
      destruct (nth i (not_yet st) true); cbn [fst]; [|apply Hs, Hi']. right. eexists. split; [apply Hk, Hi'|reflexivity].
    - intros i Hi'. rewrite (nth_map_in _ _ i dtup) by lia. rewrite Nt by exact Hi'. unfold proposal_cond.
      destruct (nth i (not_yet st) true); cbn [snd]; [constructor|]; apply Hk, Hi'.
    - assert (Hle := count_true_le (not_yet st)). rewrite L1 in Hle.
      unfold continue in Hc. apply andb_prop in Hc. destruct Hc as [Hc _]. apply Nat.ltb_lt in Hc.
      destruct He as [He|He]; [left|]; nia.
  Qed.

  Lemma loop_cinv fuel : forall st, cinv st -> cinv (rej_loop pick dens uniform inflation fuel maxrej st).
  Proof.
    clear Hpick Hunif. induction fuel; intros st H; cbn; [exact H|]. destruct (continue maxrej st) eqn:E; [|exact H].
    apply IHfuel, round_cinv; assumption.
  Qed.

  Lemma start_cinv : cinv (rej_start pick_n dens uniform_n inflation n k init_bound).
  Proof.
    unfold rej_start, cinv. cbn [not_yet sampled rkeys riter evals].
    split; [rewrite map_length, combine_length, map_length, combine_length, seq_length; lia|].
    split; [exact Hpick|]. split; [apply split_keys_length|].
    split; [intros i _; left; reflexivity|]. split; [|split; [lia|lia]].
    intros i Hi. rewrite split_keys_nth by exact Hi. constructor.
  Qed.

  (** indices of the open targets *)
  Definition open_inds (l : list bool) : list nat := filter (fun i => nth i l false) (seq 0 (length l)).
  Lemma open_inds_length l : length (open_inds l) = count_true l.
  Proof.
    unfold open_inds, count_true. 
    assert (H : forall l s (g : nat -> bool), (forall i, (i < length l)%nat -> g (s + i)%nat = nth i l false) ->
      length (filter g (seq s (length l))) = length (filter (fun b => b) l)).
    { clear. induction l as [|b l IH]; intros s g H; [reflexivity|]. cbn [length seq filter].
      pose proof (H 0%nat ltac:(cbn; lia)) as H0. rewrite Nat.add_0_r in H0. cbn in H0. rewrite H0.
      assert (E : length (filter g (seq (S s) (length l))) = length (filter (fun b => b) l)).
      { apply IH. intros i Hi. replace (S s + i)%nat with (s + S i)%nat by lia. rewrite H by (cbn; lia). reflexivity. }
      destruct b; cbn [length filter]; congruence. }
    apply H. reflexivity.
  Qed.
End Count.

(** The number of evaluations that is reported: one for each target and round it
    is open in, and one for each candidate for the targets drawn exactly at the
    end, which happens only after the allowed number of rounds. *)
Theorem C66_evaluations :
  forall (A : Type) (da : A) pick pick_n dens full uniform uniform_n inflation n n0 k maxrej init_bound,
  length (pick_n (KSplit k 3 0) n) = n -> length (uniform_n (KSplit k 3 1) n) = n -> (0 < n)%nat ->
  let r := rejection pick pick_n dens full uniform uniform_n inflation n n0 k maxrej init_bound in
  exists exact : list nat, NoDup exact
  /\ (forall j, In j exact -> (j < n)%nat /\ exists k', derived (KSplit (KSplit k 3 2) n j) k' /\ nth j (fst r) da = full j k')
  /\ (forall j, (j < n)%nat -> ~ In j exact -> nth j (fst r) da = nth j (pick_n (KSplit k 3 0) n) da
        \/ exists k', derived (KSplit (KSplit k 3 2) n j) k' /\ nth j (fst r) da = pick (KSplit k' 3 1))
  /\ (n + n0 * length exact <= snd r <= n * Nat.max 1 maxrej + n0 * length exact)%nat
  /\ (exact <> [] -> n + (maxrej - 1) + n0 * length exact <= snd r)%nat.
Proof.
  intros A da pick pick_n dens full unif unif_n infl n n0 k maxrej ib Hp Hu Hn r.
  pose proof (start_cinv da pick pick_n dens unif_n infl n k ib Hp Hu) as H0.
  pose proof (loop_cinv da pick pick_n dens unif infl n k maxrej maxrej _ H0) as HI.
  set (st0 := rej_start pick_n dens unif_n infl n k ib) in *.
  pose proof (rej_loop_stops pick dens unif infl maxrej maxrej st0 ltac:(lia)) as HS.
  pose proof (rej_loop_iter pick dens unif infl maxrej maxrej st0 ltac:(apply Nat.le_max_l)) as HT.
  unfold rejection in r. fold st0 in r.
  set (st := rej_loop pick dens unif infl maxrej maxrej st0) in *.
  destruct HI as (L1 & L2 & L3 & Hs & Hk & Hi & He).
  set (g := fun i (nya : bool) a (k : key) => (if nya then full i k else a, Fin 0, false, k)) in r.
  assert (Lm : length (map4 g 0 (not_yet st) (sampled st) (rkeys st)) = n) by (rewrite map4_length; lia).
  assert (N : forall j, (j < n)%nat -> nth j (fst r) da
     = if nth j (not_yet st) true then full j (nth j (rkeys st) (KRoot 0)) else nth j (sampled st) da).
  { intros j Hj. unfold r. cbn [fst]. rewrite (nth_map_in _ _ j (da, Fin 0, false, KRoot 0)) by lia.
    rewrite (map4_nth g _ true da (KRoot 0)) by lia. reflexivity. }
  assert (O : forall j, (j < n)%nat -> nth j (not_yet st) true = nth j (not_yet st) false).
  { intros j Hj. apply nth_indep. lia. }
  exists (open_inds (not_yet st)). split; [apply NoDup_filter, seq_NoDup|]. split; [|split; [|split]].
  - intros j Hj. apply filter_In in Hj. destruct Hj as [Hj Hb]. apply in_seq in Hj. split; [lia|].
    eexists. split; [apply Hk; lia|]. rewrite N, O, Hb by lia. reflexivity.
  - intros j Hj Hn'. rewrite N by exact Hj. destruct (nth j (not_yet st) true) eqn:E; [|apply Hs, Hj].
    exfalso. apply Hn'. apply filter_In. split; [apply in_seq; lia|]. rewrite <- O; assumption.
  - rewrite open_inds_length. unfold r. cbn [snd]. nia.
  - intros Hne. rewrite open_inds_length. unfold r. cbn [snd].
    assert (0 < count_true (not_yet st))%nat.
    { rewrite <- open_inds_length. destruct (open_inds (not_yet st)); [congruence|cbn; lia]. }
    unfold continue in HS. destruct (Nat.ltb_spec 0 (count_true (not_yet st))); [|lia].
    cbn [andb] in HS. apply Nat.ltb_ge in HS. lia.
Qed.
Print Assumptions C66_evaluations.

(** Two targets, two rounds, the first target accepted at once (uniform 0) and
    the second one never (uniform 2): 2 + 1 + 3 evaluations. *)
Example C66_evaluations_example :
  snd (rejection (fun _ => tt) (fun _ n => repeat tt n) (fun _ _ => Fin 1) (fun _ _ => tt) (fun _ => 2)
         (fun _ _ => [0; 2]) 1 2 3 (KRoot 0) 2 1) = 6%nat.
Proof.
  assert (E1 : xltb (Fin 1) (Fin 1) = false) by (apply Rltb_false; lra).
  assert (E2 : xltb (xquot (Fin 1) (Fin 1)) (Fin 0) = false).
  { cbn. unfold xdiv. destruct (Req_EM_T 1 0); [lra|]. apply Rltb_false. lra. }
  assert (E3 : xltb (xquot (Fin 1) (Fin 1)) (Fin 2) = true).
  { cbn. unfold xdiv. destruct (Req_EM_T 1 0); [lra|]. apply Rltb_true. lra. }
  assert (E4 : xltb (Fin 0) (Fin 1) = true) by (apply Rltb_true; lra).
  assert (E5 : xltb (Fin 1) NInf = false) by reflexivity.
  unfold rejection, rej_start, split_keys, xmaxl.
  repeat (cbn -[xltb xquot xmul proposal_all]; rewrite ?E1, ?E2, ?E3, ?E4, ?E5).
  unfold proposal_all, proposal_cond, xmaxl.
  repeat (cbn -[xltb xquot xmul]; rewrite ?E1, ?E2, ?E3, ?E4, ?E5).
  reflexivity.
Qed.

(** A round keeps what was accepted, with its key, unless the bound is raised. *)
Theorem C66_kept :
  forall (A : Type) (da : A) pick dens uniform inflation (st : rstate (A := A)) j,
  let st' := proposal_all pick dens uniform inflation st in
  length (sampled st) = length (not_yet st) -> length (rkeys st) = length (not_yet st) ->
  bound st' = bound st -> 1 < inflation -> (exists b, bound st = Fin b /\ 0 < b) ->
  (j < length (not_yet st))%nat -> nth j (not_yet st) true = false ->
  nth j (not_yet st') true = false /\ nth j (sampled st') da = nth j (sampled st) da
  /\ nth j (rkeys st') (KRoot 0) = nth j (rkeys st) (KRoot 0).
Proof.
  intros A da pick dens unif infl st j st' Ls Lk Hb Hi (b & Eb & Pb) Hj Ha.
  unfold st', proposal_all in *. cbn [bound not_yet sampled rkeys] in *.
  set (tup := map4 _ 0 _ _ _) in *.
  assert (Lt : length tup = length (not_yet st)) by (unfold tup; rewrite map4_length; lia).
  set (dtup := (da, Fin 0, true, KRoot 0)).
  assert (Nt : nth j tup dtup = (nth j (sampled st) da, Fin 0, false, nth j (rkeys st) (KRoot 0))).
  { unfold tup. rewrite (map4_nth _ (not_yet st) true da (KRoot 0)) by lia. unfold proposal_cond.
    rewrite Nat.add_0_l || idtac. rewrite Ha. reflexivity. }
  assert (R : xltb (bound st) (xmaxl (map (fun x : A * xr * bool * key => snd (fst (fst x))) tup)) = false).
  { rewrite Eb in *. destruct (xltb (Fin b) _) eqn:E; [|reflexivity]. exfalso.
    destruct (xmaxl _) as [m| | |]; cbn in *; try discriminate.
    - injection Hb as Hb. apply Rltb_true in E. nra.
    - destruct (Rlt_dec 0 infl); try discriminate; lra. }
  rewrite R. rewrite !(nth_map_in _ _ j dtup) by lia. rewrite Nt. auto.
Qed.
Print Assumptions C66_kept.
Example C66_kept_example :
  let st := RState [true; false] [tt; tt] (Fin 1) [KRoot 1; KRoot 2] 1 2 in
  let st' := proposal_all (fun _ => tt) (fun _ _ => Fin 1) (fun _ => 2) 2 st in
  bound st' = Fin 1 /\ not_yet st' = [true; false] /\ rkeys st' = [KSplit (KRoot 1) 3 0; KRoot 2].
Proof.
  unfold proposal_all, proposal_cond, xmaxl. cbn. unfold xdiv, Rltb. destruct (Req_EM_T 1 0); try lra.
  repeat (destruct Rlt_dec; try lra). cbn. unfold Rltb. repeat (destruct Rlt_dec; try lra). cbn. auto.
Qed.
