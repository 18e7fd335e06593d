From Coq Require Import Reals ZArith List Arith Bool Lra Lia.
From Verif Require Import XR Keys LoopModel LoopSpec LoopProps McmcProofs SimModel SimSpec.
Import ListNotations.
Open Scope R_scope.

(** * Binary search *)
Section Search.
Variable a : list xr.
Variable v : xr.
Let p i := xleb v (nth i a NaN).

Lemma halve_spec : forall L low high (lv : bool),
  (forall i j, (i <= j)%nat -> (j < length a)%nat -> p i = true -> p j = true) ->
  (high <= length a)%nat -> (low <= high)%nat ->
  (forall j, (high <= j < length a)%nat -> p j = true) ->
  (if lv then (low < high)%nat /\ p low = false /\ (high - low <= 2 ^ L)%nat
   else low = O /\ (high + 1 <= 2 ^ L)%nat) ->
  (halve a v L low high <= length a)%nat
  /\ (forall j, (j < halve a v L low high)%nat -> p j = false)
  /\ (forall j, (halve a v L low high <= j < length a)%nat -> p j = true).
Proof.
  induction L as [|L IH]; intros low high lv mono Hh Hlh Hup Hlow.
  - cbn [halve]. split; [exact Hh|]. split; [|exact Hup].
    intros j Hj. destruct lv.
    + destruct Hlow as [H1 [H2 H3]]. cbn in H3. assert (high = S low) by lia.
      destruct (p j) eqn:E; [|reflexivity].
      rewrite (mono j low) in H2; [discriminate|lia|lia|exact E].
    + destruct Hlow as [H1 H2]. cbn in H2. lia.
  - cbn [halve]. rewrite Nat.pow_succ_r' in Hlow.
    pose proof (Nat.div_mod (low + high) 2 ltac:(lia)) as D.
    pose proof (Nat.mod_upper_bound (low + high) 2 ltac:(lia)) as D2.
    set (mid := Nat.div (low + high) 2) in *. set (md := Nat.modulo (low + high) 2) in *. clearbody mid md.
    fold (p mid). destruct (p mid) eqn:E.
    + apply (IH low mid lv).
      * exact mono.
      * lia.
      * lia.
      * intros j Hj. destruct (le_lt_dec high j) as [G|G]; [apply Hup; lia|].
        apply (mono mid j); [lia|lia|exact E].
      * destruct lv.
        -- destruct Hlow as [H1 [H2 H3]]. split; [|split; [exact H2|lia]].
           destruct (Nat.eq_dec mid low) as [Q|Q]; [|lia]. rewrite Q in E. congruence.
        -- destruct Hlow as [H1 H2]. split; [exact H1|]. lia.
    + destruct (Nat.eq_dec low high) as [Q|Q].
      * (* low = high = 0, no entry to look at *)
        destruct lv; [lia|]. destruct Hlow as [H1 H2].
        assert (mid = O) by lia. assert (high = O) by lia. subst mid high low.
        destruct (length a) as [|n] eqn:Ea.
        -- pose proof (Nat.pow_nonzero 2 L ltac:(lia)) as PZ.
           apply (IH O O false mono); lia.
        -- rewrite (Hup O) in E; [discriminate|lia].
      * apply (IH mid high true).
        -- exact mono.
        -- exact Hh.
        -- lia.
        -- exact Hup.
        -- split; [lia|]. split; [exact E|].
           destruct lv; [destruct Hlow as [H1 [H2 H3]]; lia|destruct Hlow as [H1 H2]; lia].
Qed.

Lemma searchsorted_spec :
  (forall i j, (i <= j)%nat -> (j < length a)%nat -> p i = true -> p j = true) ->
  (searchsorted a v <= length a)%nat
  /\ (forall j, (j < searchsorted a v)%nat -> p j = false)
  /\ (forall j, (searchsorted a v <= j < length a)%nat -> p j = true).
Proof.
  intro mono. unfold searchsorted. apply (halve_spec _ 0 (length a) false).
  - exact mono.
  - lia.
  - lia.
  - intros j Hj. lia.
  - split; [reflexivity|]. pose proof (Nat.log2_up_spec (S (length a))) as H.
    destruct (length a) as [|n] eqn:Ea; [cbn; lia|].
    specialize (H ltac:(lia)). lia.
Qed.
End Search.

(** * Choosing an event *)
Lemma cumsum_length l s : length (cumsum s l) = length l.
Proof. revert s. induction l as [|a l IH]; intro s; cbn; [reflexivity|]. now rewrite IH. Qed.

Lemma cumsum_nth l : forall s i d, (i < length l)%nat ->
  nth i (cumsum (Fin s) (map Fin l)) d = Fin (s + rsum (firstn (S i) l)).
Proof.
  induction l as [|a l IH]; intros s i d Hi; [cbn in Hi; lia|].
  destruct i as [|i].
  - cbn. f_equal. lra.
  - cbn [map cumsum xadd]. cbn [nth]. rewrite IH by (cbn in Hi; lia).
    f_equal. cbn [firstn rsum fold_right]. unfold rsum. lra.
Qed.

Lemma rsum_firstn_S l i : (i < length l)%nat -> rsum (firstn (S i) l) = rsum (firstn i l) + nth i l 0.
Proof.
  revert i. induction l as [|a l IH]; intros i Hi; [cbn in Hi; lia|].
  destruct i as [|i]; [cbn; lra|].
  cbn [firstn rsum fold_right nth]. cbn in Hi. specialize (IH i ltac:(lia)). cbn [firstn rsum fold_right] in IH.
  unfold rsum in *. cbn [firstn fold_right] in *. rewrite IH. lra.
Qed.

Lemma rsum_scal l s : rsum (map (fun h => h / s) l) = rsum l / s.
Proof. induction l as [|a l IH]; cbn; [unfold Rdiv; ring|]. unfold rsum in IH. rewrite IH. unfold Rdiv. ring. Qed.

Lemma rsum_nonneg l : Forall (fun h => 0 <= h) l -> 0 <= rsum l.
Proof. induction 1; cbn; [lra|]. unfold rsum in IHForall. lra. Qed.

Lemma Forall_firstn_nn (l : list R) j : Forall (fun h => 0 <= h) l -> Forall (fun h => 0 <= h) (firstn j l).
Proof. intro H. revert j. induction H; intros [|j]; cbn; auto. Qed.

Lemma rsum_firstn_mono l : Forall (fun h => 0 <= h) l -> forall i j, (i <= j)%nat -> rsum (firstn i l) <= rsum (firstn j l).
Proof.
  induction 1 as [|a l Ha Hl IH]; intros i j Hij.
  - rewrite !firstn_nil. lra.
  - destruct i as [|i]; destruct j as [|j]; try lia.
    + lra.
    + cbn. pose proof (rsum_nonneg (firstn j l) (Forall_firstn_nn _ _ Hl)). unfold rsum in H. lra.
    + cbn. specialize (IH i j ltac:(lia)). unfold rsum in IH. lra.
Qed.

Lemma rdiv_pos a b : b <> 0 -> rdiv a b = Fin (a / b).
Proof. intro H. unfold rdiv. destruct (Req_EM_T b 0); [contradiction|reflexivity]. Qed.

Section Choice.
Variable uniform : key -> R.

Lemma choice_spec h k :
  Forall (fun x => 0 <= x) h -> 0 < rsum h -> 0 <= uniform k < 1 ->
  exists i, choice uniform k (map (fun x => rdiv x (rsum h)) h) = i
    /\ (i < length h)%nat /\ 0 < nth i h 0
    /\ rsum (firstn i h) < rsum h * (1 - uniform k) <= rsum (firstn (S i) h).
Proof.
  intros Hh Hs Hu.
  assert (Hn : (0 < length h)%nat) by (destruct h; [cbn in Hs; lra|cbn; lia]).
  assert (Eq : map (fun x => rdiv x (rsum h)) h = map Fin (map (fun x => x / rsum h) h)).
  { rewrite map_map. apply map_ext. intro x. apply rdiv_pos. lra. }
  set (q := map (fun x => x / rsum h) h) in *.
  assert (Lq : length q = length h) by (unfold q; apply map_length).
  assert (Fq : forall i, rsum (firstn i q) = rsum (firstn i h) / rsum h).
  { intro i. unfold q. rewrite firstn_map. apply rsum_scal. }
  assert (Ec : forall i, (i < length h)%nat ->
            nth i (cumsum (Fin 0) (map Fin q)) NaN = Fin (rsum (firstn (S i) h) / rsum h)).
  { intros i Hi. rewrite cumsum_nth by lia. rewrite Fq. f_equal. lra. }
  set (u := uniform k) in *.
  unfold choice. rewrite Eq. fold u.
  set (c := cumsum (Fin 0) (map Fin q)) in *.
  assert (Lc : length c = length h) by (unfold c; rewrite cumsum_length, map_length; exact Lq).
  assert (El : last c NaN = Fin 1).
  { assert (nth (length c - 1) c NaN = last c NaN).
    { clear. induction c as [|x c IH]; [reflexivity|]. destruct c; [reflexivity|].
      cbn [length last] in *. rewrite <- IH. replace (S (S (length c)) - 1)%nat with (S (S (length c) - 1))%nat by lia. reflexivity. }
    rewrite <- H, Lc, Ec by lia. f_equal.
    replace (S (length h - 1)) with (length h) by lia. rewrite firstn_all. field. lra. }
  rewrite El. cbn [xmul]. rewrite Rmult_1_l.
  assert (P : forall i, (i < length h)%nat ->
    (xleb (Fin (1 - u)) (nth i c NaN) = true <-> rsum h * (1 - u) <= rsum (firstn (S i) h))).
  { intros i Hi. rewrite Ec by exact Hi. cbn [xleb]. rewrite Rleb_true.
    split; intro G.
    - apply (Rmult_le_compat_l (rsum h)) in G; [|lra].
      replace (rsum h * (rsum (firstn (S i) h) / rsum h)) with (rsum (firstn (S i) h)) in G by (field; lra). exact G.
    - apply Rmult_le_reg_l with (rsum h); [lra|].
      replace (rsum h * (rsum (firstn (S i) h) / rsum h)) with (rsum (firstn (S i) h)) by (field; lra). exact G. }
  destruct (searchsorted_spec c (Fin (1 - u))) as [R1 [R2 R3]].
  { intros i j Hij Hj Hi. rewrite Lc in Hj. apply P; [exact Hj|]. apply P in Hi; [|lia].
    eapply Rle_trans; [exact Hi|]. apply rsum_firstn_mono; [exact Hh|lia]. }
  set (r := searchsorted c (Fin (1 - u))) in *. rewrite Lc in R1, R3.
  assert (Hr : (r < length h)%nat).
  { destruct (Nat.eq_dec r (length h)) as [Q|Q]; [|lia]. exfalso.
    specialize (R2 (length h - 1)%nat ltac:(lia)).
    assert (xleb (Fin (1 - u)) (nth (length h - 1) c NaN) = true); [|congruence].
    apply P; [lia|]. replace (S (length h - 1)) with (length h) by lia. rewrite firstn_all. nra. }
  assert (U : rsum h * (1 - u) <= rsum (firstn (S r) h)) by (apply P; [exact Hr|apply R3; lia]).
  assert (Lw : rsum (firstn r h) < rsum h * (1 - u)).
  { destruct r as [|r']; [cbn; nra|].
    specialize (R2 r' ltac:(lia)). apply Rnot_le_lt. intro G. apply (P r') in G; [congruence|lia]. }
  exists r. split; [reflexivity|]. split; [exact Hr|]. split; [|split; assumption].
  pose proof (rsum_firstn_S h r Hr). lra.
Qed.
End Choice.

Lemma map_repeat {A B : Type} (f : A -> B) x n : map f (repeat x n) = repeat (f x) n.
Proof. induction n as [|n IH]; cbn; [reflexivity|]. now rewrite IH. Qed.

Lemma Forall2_map_in {A B : Type} (P : A -> B -> Prop) (f : A -> B) l :
  (forall x, In x l -> P x (f x)) -> Forall2 P l (map f l).
Proof.
  induction l as [|x l IH]; intro H; cbn; [constructor|].
  constructor; [apply H; left; reflexivity|]. apply IH. intros y Hy. apply H. right. exact Hy.
Qed.

Lemma raw_at {St Ex : Type} (cond : St -> Ex -> bool) (body : St -> Ex -> St * Ex) start m k :
  stops_at cond body start m k ->
  fst (fst (while_loop_stacked_raw cond body start m)) = iterates body start k ++ repeat (fst start) (m - k).
Proof.
  intro Hst. destruct (C01_raw_stack_padding _ _ cond body start m) as [k' [Hst' [E _]]]. rewrite E.
  assert (k' = k); [|subst; reflexivity].
  destruct Hst as [A1 [A2 A3]], Hst' as [B1 [B2 B3]].
  destruct (lt_eq_lt_dec k' k) as [[G|G]|G]; [|exact G|]; exfalso.
  - specialize (A2 k' G). destruct B3 as [B3|B3]; [lia|congruence].
  - specialize (B2 k G). destruct A3 as [A3|A3]; [lia|congruence].
Qed.

(** * Paths *)
Lemma path_seq {A : Type} (step : A -> A -> Prop) (f : nat -> A) k : forall s,
  (forall j, (s <= j < s + k)%nat -> step (f j) (f (S j))) ->
  path step (f s) (map (fun j => f (S j)) (seq s k)).
Proof.
  induction k as [|k IH]; intros s H; cbn; [exact I|].
  split; [apply H; lia|]. apply IH. intros j Hj. apply H. lia.
Qed.

Lemma path_iterates {St Ex : Type} (body : St -> Ex -> St * Ex) (step : St -> St -> Prop) c k :
  (forall j, (j < k)%nat -> step (fst (iterate body j c)) (fst (iterate body (S j) c))) ->
  path step (fst c) (iterates body c k).
Proof.
  intro H. unfold iterates. apply (path_seq step (fun j => fst (iterate body j c)) k 0).
  intros j Hj. apply H. lia.
Qed.

Lemma path_impl {A : Type} (s1 s2 : A -> A -> Prop) x l : (forall a b, s1 a b -> s2 a b) -> path s1 x l -> path s2 x l.
Proof. intro H. revert x. induction l as [|y l IH]; cbn; intuition. Qed.

Lemma path_map {A B : Type} (f : A -> B) (step : B -> B -> Prop) l : forall x,
  path (fun a b => step (f a) (f b)) x l -> path step (f x) (map f l).
Proof. induction l as [|y l IH]; cbn; intuition. Qed.

Lemma iterates_length {St Ex : Type} (body : St -> Ex -> St * Ex) c k : length (iterates body c k) = k.
Proof. unfold iterates. rewrite map_length, seq_length. reflexivity. Qed.

Lemma iterates_nth {St Ex : Type} (body : St -> Ex -> St * Ex) c k j d :
  (j < k)%nat -> nth j (iterates body c k) d = fst (iterate body (S j) c).
Proof.
  intro H. unfold iterates.
  rewrite (nth_indep _ d (fst (iterate body 1 c))) by (rewrite map_length, seq_length; exact H).
  rewrite (map_nth (fun j => fst (iterate body (S j) c)) _ O). rewrite seq_nth by exact H. reflexivity.
Qed.

(** * The epidemic *)
Section Sir.
Variable uniform : key -> R.
Variables p0 p1 pop : R.
Hypothesis Hu : forall k, 0 <= uniform k < 1.
Hypothesis Hp0 : 0 < p0.
Hypothesis Hp1 : 0 < p1.
Hypothesis Hpop : 0 < pop.

Lemma sir_jump s i t k :
  (0 <= s)%Z -> (0 < i)%Z ->
  let r := infection_rate p0 pop s i + removal_rate p1 i in
  let dt := - ln (exponential_sample_buffer + uniform (KSplit k 3 0)) / r in
  0 < r /\ exists c, sir_step uniform p0 p1 pop ((s, i), t) k = ((c, xadd t (Fin dt)), KSplit k 3 2)
    /\ ((r * (1 - uniform (KSplit k 3 1)) <= infection_rate p0 pop s i /\ (0 < s)%Z /\ c = (s - 1, i + 1)%Z)
        \/ (infection_rate p0 pop s i < r * (1 - uniform (KSplit k 3 1)) /\ c = (s, i - 1)%Z)).
Proof.
  intros Hs Hi r dt.
  assert (Ds : 0 <= IZR s) by (apply IZR_le; exact Hs).
  assert (Di : 0 < IZR i) by (apply IZR_lt; exact Hi).
  assert (E1 : p0 / pop * IZR s * IZR i = infection_rate p0 pop s i) by (unfold infection_rate; field; lra).
  assert (E2 : p1 * IZR i = removal_rate p1 i) by reflexivity.
  assert (P1 : 0 <= infection_rate p0 pop s i).
  { rewrite <- E1. apply Rmult_le_pos; [apply Rmult_le_pos; [|exact Ds]|lra].
    apply Rlt_le, Rdiv_lt_0_compat; assumption. }
  assert (P2 : 0 < removal_rate p1 i) by (unfold removal_rate; apply Rmult_lt_0_compat; assumption).
  unfold sir_step, jump. rewrite E1, E2.
  assert (Er : rsum [infection_rate p0 pop s i; removal_rate p1 i] = r) by (cbn; unfold r; ring).
  assert (Pr : 0 < r) by (unfold r; lra).
  destruct (choice_spec uniform [infection_rate p0 pop s i; removal_rate p1 i] (KSplit k 3 1)) as [j [Ej [Hj [Pj Bj]]]].
  { apply Forall_cons; [lra|]. apply Forall_cons; [lra|]. apply Forall_nil. }
  { rewrite Er. exact Pr. }
  { apply Hu. }
  rewrite Ej. rewrite Er in *. rewrite rdiv_pos by lra. fold dt.
  split; [exact Pr|].
  eexists. split; [reflexivity|].
  destruct j as [|[|j]]; [| |cbn in Hj; lia].
  - left. cbn in Bj, Pj. split; [lra|]. split; [|reflexivity].
    destruct (Z.eq_dec s 0) as [Z0|Z0]; [|lia]. exfalso. subst s. unfold infection_rate in Pj.
    replace (p0 * 0 * IZR i / pop) with 0 in Pj by (unfold Rdiv; ring). lra.
  - right. cbn in Bj. split; [lra|]. reflexivity.
Qed.

Variable init : Z * Z.
Variable key0 : key.
Hypothesis Hinit : nonneg init.
Let cond := fun (c : (Z * Z) * xr) (_ : key) => Z.ltb 0 (snd (fst c)).
Let body := sir_step uniform p0 p1 pop.
Let start := ((init, Fin 0), key0).
Let it j := iterate body j start.

Lemma sir_one c t key1 : nonneg c -> (0 < snd c)%Z ->
  sir_event c (fst (fst (body (c, t) key1))) /\ (finite t -> finite (snd (fst (body (c, t) key1)))).
Proof.
  destruct c as [s i]. intros [N1 N2] C. cbn [fst snd] in *.
  destruct (sir_jump s i t key1 N1 C) as [_ [c [E D]]]. unfold body. rewrite E. cbn [fst snd]. split.
  - destruct D as [[_ [D1 D2]]|[_ D2]]; rewrite D2; constructor; assumption.
  - intros [r F]. rewrite F. eexists. reflexivity.
Qed.

Lemma sir_along k : (forall j, (j < k)%nat -> cond (fst (it j)) (snd (it j)) = true) ->
  forall j, (j <= k)%nat ->
    nonneg (fst (fst (it j)))
    /\ (2 * fst (fst (fst (it j))) + snd (fst (fst (it j))) = 2 * fst init + snd init - Z.of_nat j)%Z
    /\ finite (snd (fst (it j))).
Proof.
  intros Hc j. induction j as [|j IH]; intro Hj.
  - split; [exact Hinit|]. split; [cbn; lia|]. eexists; reflexivity.
  - destruct IH as [N [T F]]; [lia|]. specialize (Hc j ltac:(lia)). unfold cond in Hc. apply Z.ltb_lt in Hc.
    change (it (S j)) with (body (fst (it j)) (snd (it j))).
    destruct (it j) as [[c t] key1]. cbn [fst snd] in *.
    destruct (sir_one c t key1 N Hc) as [V G].
    destruct (body (c, t) key1) as [[c' t'] key2]. cbn [fst snd] in *.
    split; [|split; [|exact (G F)]].
    + unfold nonneg in *. inversion V; subst; cbn [fst snd] in *; lia.
    + inversion V; subst; cbn [fst snd] in *; lia.
Qed.

Lemma sir_events k : (forall j, (j < k)%nat -> cond (fst (it j)) (snd (it j)) = true) ->
  forall j, (j < k)%nat -> sir_event (fst (fst (it j))) (fst (fst (it (S j)))).
Proof.
  intros Hc j Hj. destruct (sir_along k Hc j ltac:(lia)) as [N _].
  specialize (Hc j Hj). unfold cond in Hc. apply Z.ltb_lt in Hc.
  change (it (S j)) with (body (fst (it j)) (snd (it j))).
  destruct (it j) as [[c t] key1]. cbn [fst snd] in *. apply sir_one; assumption.
Qed.

(** The times, when the logarithms are not positive *)
Lemma sir_times k : (forall key, uniform key <= 1 - exponential_sample_buffer) ->
  (forall j, (j < k)%nat -> cond (fst (it j)) (snd (it j)) = true) ->
  forall j, (j < k)%nat -> no_earlier (snd (fst (it j))) (snd (fst (it (S j)))).
Proof.
  intros Hb Hc j Hj. destruct (sir_along k Hc j ltac:(lia)) as [N [_ F]].
  specialize (Hc j Hj). unfold cond in Hc. apply Z.ltb_lt in Hc.
  change (it (S j)) with (body (fst (it j)) (snd (it j))).
  destruct (it j) as [[[s i] t] key1]. cbn [fst snd] in *. destruct N as [N1 N2]. cbn [fst snd] in *.
  destruct (sir_jump s i t key1 N1 Hc) as [Pr [c [E _]]]. unfold body. rewrite E. cbn [fst snd].
  destruct F as [r F]. rewrite F. cbn.
  assert (0 <= - ln (exponential_sample_buffer + uniform (KSplit key1 3 0))
               / (infection_rate p0 pop s i + removal_rate p1 i)); [|lra].
  apply Rmult_le_pos; [|apply Rlt_le, Rinv_0_lt_compat; exact Pr].
  specialize (Hb (KSplit key1 3 0)). specialize (Hu (KSplit key1 3 0)).
  assert (B : 0 < exponential_sample_buffer) by (unfold exponential_sample_buffer; lra).
  assert (L : ln (exponential_sample_buffer + uniform (KSplit key1 3 0)) <= ln 1) by (apply Rnot_lt_le; intro G; apply ln_lt_inv in G; lra).
  rewrite ln_1 in L. lra.
Qed.
End Sir.

(** * Predator and prey *)
Section Lv.
Variable uniform : key -> R.
Variables p0 p1 p2 : R.
Hypothesis Hu : forall k, 0 <= uniform k < 1 - exponential_sample_buffer.
Hypothesis Hp0 : 0 < p0.
Hypothesis Hp1 : 0 < p1.
Hypothesis Hp2 : 0 < p2.

Lemma log_pos k : 0 < - ln (exponential_sample_buffer + uniform k).
Proof.
  specialize (Hu k). assert (B : 0 < exponential_sample_buffer) by (unfold exponential_sample_buffer; lra).
  assert (L : ln (exponential_sample_buffer + uniform k) < ln 1) by (apply ln_increasing; lra).
  rewrite ln_1 in L. lra.
Qed.

Lemma lv_jump a b t k :
  (0 <= a)%Z -> (0 <= b)%Z -> (0 < a + b)%Z ->
  let h0 := p0 * IZR a in let h1 := p1 * IZR a * IZR b in let h2 := p2 * IZR b in
  let r := h0 + h1 + h2 in
  let dt := - ln (exponential_sample_buffer + uniform (KSplit k 3 0)) / r in
  let q := r * (1 - uniform (KSplit k 3 1)) in
  0 < r /\ 0 < dt /\ exists c, lv_step uniform p0 p1 p2 ((a, b), t) k = ((c, xadd t (Fin dt)), KSplit k 3 2)
    /\ ((q <= h0 /\ (0 < a)%Z /\ c = (a + 1, b)%Z)
        \/ (h0 < q <= h0 + h1 /\ (0 < a)%Z /\ (0 < b)%Z /\ c = (a - 1, b + 1)%Z)
        \/ (h0 + h1 < q /\ (0 < b)%Z /\ c = (a, b - 1)%Z)).
Proof.
  intros Ha Hb Hab h0 h1 h2 r dt q.
  assert (Da : 0 <= IZR a) by (apply IZR_le; exact Ha).
  assert (Db : 0 <= IZR b) by (apply IZR_le; exact Hb).
  assert (Dab : 0 < IZR a + IZR b) by (rewrite <- plus_IZR; apply IZR_lt; exact Hab).
  assert (P0 : 0 <= h0) by (apply Rmult_le_pos; lra).
  assert (P1 : 0 <= h1) by (apply Rmult_le_pos; [apply Rmult_le_pos; lra|lra]).
  assert (P2 : 0 <= h2) by (apply Rmult_le_pos; lra).
  assert (Pr : 0 < r).
  { unfold r. destruct (Req_dec (IZR a) 0) as [Z0|Z0].
    - assert (0 < h2) by (apply Rmult_lt_0_compat; lra). lra.
    - assert (0 < h0) by (apply Rmult_lt_0_compat; lra). lra. }
  assert (Er : rsum [h0; h1; h2] = r) by (cbn; unfold r; ring).
  unfold lv_step, jump. fold h0 h1 h2.
  assert (Bf : 0 < exponential_sample_buffer) by (unfold exponential_sample_buffer; lra).
  destruct (choice_spec uniform [h0; h1; h2] (KSplit k 3 1)) as [j [Ej [Hj [Pj Bj]]]].
  { apply Forall_cons; [lra|]. apply Forall_cons; [lra|]. apply Forall_cons; [lra|]. apply Forall_nil. }
  { rewrite Er. exact Pr. }
  { specialize (Hu (KSplit k 3 1)). lra. }
  rewrite Ej. rewrite Er in *. rewrite rdiv_pos by lra. fold dt. fold q in Bj.
  split; [exact Pr|].
  split; [apply Rdiv_lt_0_compat; [apply log_pos|exact Pr]|].
  eexists. split; [reflexivity|].
  assert (Za : 0 < h0 \/ 0 < h1 -> (0 < a)%Z).
  { intro G. destruct (Z.eq_dec a 0) as [Z0|Z0]; [|lia]. exfalso. subst a. unfold h0, h1 in G.
    rewrite !Rmult_0_r, Rmult_0_l in G. lra. }
  assert (Zb : 0 < h1 \/ 0 < h2 -> (0 < b)%Z).
  { intro G. destruct (Z.eq_dec b 0) as [Z0|Z0]; [|lia]. exfalso. subst b. unfold h1, h2 in G.
    rewrite !Rmult_0_r in G. lra. }
  destruct j as [|[|[|j]]]; [| | |cbn in Hj; lia]; cbn in Bj, Pj.
  - left. split; [lra|]. split; [|reflexivity]. apply Za. lra.
  - right. left. split; [lra|]. split; [apply Za; lra|]. split; [apply Zb; lra|]. reflexivity.
  - right. right. split; [lra|]. split; [apply Zb; lra|]. reflexivity.
Qed.

Lemma lv_extinct r k : exists c, lv_step uniform p0 p1 p2 ((0, 0)%Z, Fin r) k = ((c, PInf), KSplit k 3 2).
Proof.
  unfold lv_step, jump. eexists. f_equal. f_equal.
  assert (E : rsum [p0 * 0; p1 * 0 * 0; p2 * 0] = 0) by (cbn; ring).
  rewrite E. unfold rdiv. destruct (Req_EM_T 0 0) as [_|N]; [|lra].
  pose proof (log_pos (KSplit k 3 0)) as L.
  destruct (Rlt_dec 0 (- ln (exponential_sample_buffer + uniform (KSplit k 3 0)))) as [_|N]; [reflexivity|lra].
Qed.

Variable init : Z * Z.
Variable key0 : key.
Variables t0 maxt : R.
Hypothesis Hinit : nonneg init.
Let cond := fun (c : (Z * Z) * xr) (_ : key) => xltb (snd c) (Fin maxt).
Let body := lv_step uniform p0 p1 p2.
Let start := ((init, Fin t0), key0).
Let it j := iterate body j start.

Lemma lv_one c r key1 : nonneg c ->
  lv_next (c, Fin r) (fst (body (c, Fin r) key1))
  /\ ((finite (snd (fst (body (c, Fin r) key1))) /\ nonneg (fst (fst (body (c, Fin r) key1))))
      \/ snd (fst (body (c, Fin r) key1)) = PInf).
Proof.
  destruct c as [a b]. intros [N1 N2]. cbn [fst snd] in N1, N2.
  destruct (Z.eq_dec (a + b) 0) as [Z0|Z0].
  - assert (a = 0%Z) by lia. assert (b = 0%Z) by lia. subst a b.
    destruct (lv_extinct r key1) as [c E]. unfold body. rewrite E. cbn [fst snd].
    split; [|right; reflexivity]. split; [exact I|]. right. split; reflexivity.
  - destruct (lv_jump a b (Fin r) key1 N1 N2 ltac:(lia)) as [Pr [Pd [c [E D]]]].
    unfold body. rewrite E. cbn [fst snd xadd].
    assert (V : lv_event (a, b) c).
    { destruct D as [[_ [D1 D2]]|[[_ [D1 [D2 D3]]]|[_ [D1 D2]]]]; subst c; constructor; assumption. }
    split.
    + split; [cbn; lra|]. left. split; [exact V|discriminate].
    + left. split; [eexists; reflexivity|]. unfold nonneg. inversion V; subst; cbn [fst snd] in *; lia.
Qed.

Lemma lv_along k : (forall j, (j < k)%nat -> cond (fst (it j)) (snd (it j)) = true) ->
  forall j, (j <= k)%nat ->
    (finite (snd (fst (it j))) /\ nonneg (fst (fst (it j)))) \/ snd (fst (it j)) = PInf.
Proof.
  intros Hc j. induction j as [|j IH]; intro Hj.
  - left. split; [eexists; reflexivity|exact Hinit].
  - specialize (IH ltac:(lia)). specialize (Hc j ltac:(lia)). unfold cond in Hc.
    change (it (S j)) with (body (fst (it j)) (snd (it j))).
    destruct (it j) as [[c t] key1]. cbn [fst snd] in *.
    destruct IH as [[[r F] N]|F]; [|rewrite F in Hc; discriminate].
    rewrite F. apply (lv_one c r key1 N).
Qed.

Lemma lv_steps k : (forall j, (j < k)%nat -> cond (fst (it j)) (snd (it j)) = true) ->
  forall j, (j < k)%nat -> nonneg (fst (fst (it j))) /\ lv_next (fst (it j)) (fst (it (S j))).
Proof.
  intros Hc j Hj. pose proof (lv_along k Hc j ltac:(lia)) as IH.
  specialize (Hc j ltac:(lia)). unfold cond in Hc.
  change (it (S j)) with (body (fst (it j)) (snd (it j))).
  destruct (it j) as [[c t] key1]. cbn [fst snd] in *.
  destruct IH as [[[r F] N]|F]; [|rewrite F in Hc; discriminate].
  split; [exact N|]. rewrite F. apply (lv_one c r key1 N).
Qed.
End Lv.

(** * Reading a trajectory at given times *)
Lemma in_force_nth {A : Type} t (d : A * xr) : forall l x r,
  (r <= length l)%nat ->
  (forall j, (j < r)%nat -> xltb (snd (nth j l d)) (Fin t) = true) ->
  ((r < length l)%nat -> xleb (Fin t) (snd (nth r l d)) = true) ->
  (r = length l -> l = [] /\ xleb (Fin t) (snd x) = true) ->
  in_force t (x :: l) (fst (nth r (x :: l) d)).
Proof.
  induction l as [|y l IH]; intros x r Hr Hb Ha Hl.
  - cbn in Hr. assert (r = O) by lia. subst r. destruct x as [c u]. cbn. constructor. apply Hl. reflexivity.
  - destruct r as [|r].
    + destruct x as [c u], y as [c' u']. cbn. apply in_force_now. apply (Ha ltac:(cbn; lia)).
    + destruct x as [c u], y as [c' u']. change (nth (S r) ((c, u) :: (c', u') :: l) d) with (nth r ((c', u') :: l) d).
      assert (Hy : xltb u' (Fin t) = true) by (apply (Hb O); lia).
      apply in_force_later; [exact Hy|]. apply IH.
      * cbn in Hr. lia.
      * intros j Hj. apply (Hb (S j)). lia.
      * intro H. apply Ha. cbn. lia.
      * intro H. destruct (Hl ltac:(cbn; lia)) as [Q _]. discriminate.
Qed.

Lemma path_later_pos l : forall x r0, snd x = Fin r0 -> path (fun a b : (Z * Z) * xr => later (snd a) (snd b)) x l ->
  forall j d, (j < length l)%nat ->
    (exists r, snd (nth j l d) = Fin r /\ r0 < r) \/ (snd (nth j l d) = PInf /\ S j = length l).
Proof.
  induction l as [|y l IH]; intros x r0 Ex Hp j d Hj; [cbn in Hj; lia|].
  destruct Hp as [H1 H2]. rewrite Ex in H1. destruct (snd y) as [s| | |] eqn:Ey; cbn in H1; try contradiction.
  - destruct j as [|j].
    + left. exists s. cbn. rewrite Ey. split; [reflexivity|exact H1].
    + cbn in Hj. destruct (IH y s Ey H2 j d ltac:(lia)) as [[r [Er Hr]]|[E1 E2]].
      * left. exists r. split; [exact Er|lra].
      * right. split; [exact E1|]. cbn. lia.
  - destruct l as [|z l]; [|cbn in H2; rewrite Ey in H2; cbn in H2; tauto].
    cbn in Hj. assert (j = O) by lia. subst j. right. split; [exact Ey|reflexivity].
Qed.

Lemma path_later_mono l : forall x, path (fun a b : (Z * Z) * xr => later (snd a) (snd b)) x l ->
  forall t d i j, (i <= j)%nat -> (j < length l)%nat ->
    xleb (Fin t) (snd (nth i l d)) = true -> xleb (Fin t) (snd (nth j l d)) = true.
Proof.
  induction l as [|y l IH]; intros x Hp t d i j Hij Hj Hi; [cbn in Hj; lia|].
  destruct Hp as [H1 H2].
  destruct i as [|i]; destruct j as [|j]; try lia; [exact Hi| |cbn in *; apply (IH y H2 t d i j); [lia|lia|exact Hi]].
  cbn [nth] in *. destruct (snd y) as [s| | |] eqn:Ey; try (destruct (snd x); contradiction).
  - destruct (path_later_pos l y s Ey H2 j d ltac:(cbn in Hj; lia)) as [[r [Er Hr]]|[E1 _]].
    + rewrite Er. cbn in *. apply Rleb_true. apply Rleb_true in Hi. lra.
    + rewrite E1. reflexivity.
  - destruct l as [|z l]; [cbn in Hj; lia|]. cbn in H2. rewrite Ey in H2. cbn in H2. tauto.
Qed.

Lemma lv_read (init : Z * Z) (P : list ((Z * Z) * xr)) (n : nat) (t : R) :
  let x0 := (init, Fin 0) in
  let stack := P ++ repeat x0 (S n) in
  path (fun a b : (Z * Z) * xr => later (snd a) (snd b)) x0 P ->
  xltb (snd (last P x0)) (Fin t) = false ->
  exists r, before (0, 0)%Z (map fst stack) (searchsorted (map zero_to_inf (map snd stack)) (Fin t))
            = fst (nth r (x0 :: P) x0)
    /\ (r < length P \/ r = O)%nat
    /\ in_force t (x0 :: P) (fst (nth r (x0 :: P) x0)).
Proof.
  intros x0 stack Hp Hlast.
  pose proof (path_later_pos P x0 0 eq_refl Hp) as Hpos.
  set (T := map zero_to_inf (map snd stack)).
  assert (LT : length T = (length P + S n)%nat).
  { unfold T, stack. rewrite !map_length, app_length, repeat_length. reflexivity. }
  assert (TP : forall i, (i < length P)%nat -> nth i T NaN = snd (nth i P x0)).
  { intros i Hi. unfold T. rewrite map_map.
    rewrite (nth_indep _ NaN (zero_to_inf (snd x0))) by (rewrite map_length; unfold stack; rewrite app_length; lia).
    rewrite (map_nth (fun x => zero_to_inf (snd x))). unfold stack. rewrite app_nth1 by exact Hi.
    destruct (Hpos i x0 Hi) as [[r [Er Hr]]|[E _]]; [|rewrite E; reflexivity].
    rewrite Er. cbn. destruct (Req_EM_T r 0); [lra|reflexivity]. }
  assert (TR : forall i, (length P <= i < length T)%nat -> nth i T NaN = PInf).
  { intros i Hi. unfold T. rewrite map_map.
    rewrite (nth_indep _ NaN (zero_to_inf (snd x0))) by (rewrite map_length; unfold stack; rewrite app_length, repeat_length; lia).
    rewrite (map_nth (fun x => zero_to_inf (snd x))). unfold stack. rewrite app_nth2 by lia.
    rewrite nth_repeat. cbn. destruct (Req_EM_T 0 0); [reflexivity|lra]. }
  destruct (searchsorted_spec T (Fin t)) as [R1 [R2 R3]].
  { intros i j Hij Hj Hi.
    destruct (le_lt_dec (length P) j) as [G|G]; [rewrite TR by lia; reflexivity|].
    rewrite TP in * by lia. apply (path_later_mono P x0 Hp t x0 i j Hij G Hi). }
  set (r := searchsorted T (Fin t)) in *.
  assert (Hr : (r <= length P)%nat).
  { destruct (le_lt_dec r (length P)) as [G|G]; [exact G|]. exfalso.
    specialize (R2 (length P) ltac:(lia)). rewrite TR in R2 by lia. discriminate. }
  assert (Lst : P <> [] -> nth (length P - 1) P x0 = last P x0).
  { clear. induction P as [|x P IH]; [congruence|]. intros _. destruct P as [|y P]; [reflexivity|].
    change (last (x :: y :: P) x0) with (last (y :: P) x0). rewrite <- IH by discriminate.
    cbn [length]. replace (S (S (length P)) - 1)%nat with (S (S (length P) - 1))%nat by lia. reflexivity. }
  assert (Bt : forall j, (j < r)%nat -> xltb (snd (nth j P x0)) (Fin t) = true).
  { intros j Hj. specialize (R2 j Hj). rewrite TP in R2 by lia.
    destruct (Hpos j x0 ltac:(lia)) as [[s [Es Hs]]|[E _]].
    - rewrite Es in *. cbn in *. apply Rltb_true. apply Rleb_false in R2. exact R2.
    - rewrite E in R2. discriminate. }
  assert (Hr2 : (r < length P)%nat \/ P = []).
  { destruct (Nat.eq_dec r (length P)) as [Q|Q]; [|left; lia]. right.
    destruct P as [|x P']; [reflexivity|]. exfalso.
    assert (NE : x :: P' <> []) by discriminate.
    specialize (Bt (length (x :: P') - 1)%nat ltac:(rewrite Q; cbn; lia)). rewrite (Lst NE) in Bt. congruence. }
  exists r. split; [|split].
  - unfold before. destruct r as [|r'].
    + unfold stack. rewrite map_length, app_length, repeat_length, map_app, app_nth2 by (rewrite map_length; lia).
      rewrite map_length. replace (length P + S n - 1 - length P)%nat with n by lia.
      rewrite (nth_indep _ (0, 0)%Z (fst x0)) by (rewrite map_length, repeat_length; lia).
      rewrite (map_nth fst). change (x0 :: repeat x0 n) with (repeat x0 (S n)). rewrite nth_repeat. reflexivity.
    + unfold stack. rewrite map_app, app_nth1 by (rewrite map_length; lia).
      rewrite (nth_indep _ (0, 0)%Z (fst x0)) by (rewrite map_length; lia).
      rewrite (map_nth fst). reflexivity.
  - destruct Hr2 as [G|G]; [left; exact G|]. right. rewrite G in Hr. cbn in Hr. lia.
  - apply in_force_nth.
    + exact Hr.
    + exact Bt.
    + intro G. specialize (R3 r ltac:(lia)). rewrite TP in R3 by exact G. exact R3.
    + intro G. destruct Hr2 as [Q|Q]; [lia|]. split; [exact Q|]. rewrite Q in Hlast. cbn in Hlast.
      cbn. apply Rleb_true. apply Rltb_false in Hlast. exact Hlast.
Qed.

(** * Keys *)
Lemma sim_keys_distinct {St : Type} (body : St -> key -> St * key) c k m :
  (forall s k, snd (body s k) = KSplit k 3 2) ->
  NoDup (flat_map (fun j => let kj := snd (iterate body j (c, k)) in [KSplit kj 3 0; KSplit kj 3 1]) (seq 0 m)).
Proof.
  intro H.
  assert (D : forall j, kdepth (snd (iterate body j (c, k))) = (kdepth k + j)%nat).
  { induction j as [|j IH]; [cbn; lia|]. cbn [iterate]. rewrite H. cbn. rewrite IH. lia. }
  assert (Go : forall n s, NoDup (flat_map (fun j => let kj := snd (iterate body j (c, k)) in [KSplit kj 3 0; KSplit kj 3 1]) (seq s n))
     /\ forall x, In x (flat_map (fun j => let kj := snd (iterate body j (c, k)) in [KSplit kj 3 0; KSplit kj 3 1]) (seq s n)) ->
          (kdepth k + s < kdepth x)%nat).
  { induction n as [|n IH]; intro s; cbn [seq flat_map]; [split; [constructor|intros x []]|].
    destruct (IH (S s)) as [I1 I2]. cbv zeta. cbn [app]. split.
    - constructor; [|constructor; [|exact I1]].
      + intros [G|G]; [discriminate|]. apply I2 in G. cbn in G. rewrite D in G. lia.
      + intro G. apply I2 in G. cbn in G. rewrite D in G. lia.
    - intros x [G|[G|G]]; [subst; cbn; rewrite D; lia|subst; cbn; rewrite D; lia|]. apply I2 in G. lia. }
  apply (Go m O).
Qed.
