(** Proofs that ABC-SMC runs computed from one key are properly weighted. *)
From Coq Require Import Reals List Arith Bool Lia Lra FunctionalExtensionality.
From Verif Require Import XR Keys LoopModel LoopSpec LoopProofs McmcModel McmcSpec McmcProofs WeightsModel WeightsSpec WeightsProps SmcModel SmcSpec
  UnbSpec UnbProofs KexpSpec KexpProofs RejLawProofs ChainModel ChainSpec ChainProofs SmcLawModel SmcLawSpec
  AbcModel AbcSpec AbcProofs AbcRun AbcLawModel AbcLawSpec.
Import ListNotations.
Open Scope R_scope.

(** * Sums of expected values *)
Section Lin.
  Context {W : Type}.
  Variable P : law W.
  Hypothesis HP : prob P.

  Lemma kexp_plus ks (F G : (key -> W) -> R) : forall w, kexp P ks (fun w => F w + G w) w = kexp P ks F w + kexp P ks G w.
  Proof.
    induction ks as [|k r IH]; intros w; cbn [kexp]; [reflexivity|]. rewrite <- mean_plus. apply mean_fext. intros x. apply IH.
  Qed.
  Lemma kexp_scal ks c (F : (key -> W) -> R) : forall w, kexp P ks (fun w => c * F w) w = c * kexp P ks F w.
  Proof.
    induction ks as [|k r IH]; intros w; cbn [kexp]; [reflexivity|]. rewrite <- mean_scal. apply mean_fext. intros x. apply IH.
  Qed.
  Lemma mean_on_plus ks (F G : (key -> W) -> R) u v : mean_on P ks F u -> mean_on P ks G v -> mean_on P ks (fun w => F w + G w) (u + v).
  Proof. intros H1 H2 ks' w N I. rewrite kexp_plus, (H1 ks' w N I), (H2 ks' w N I). reflexivity. Qed.
  Lemma mean_on_scal ks c (F : (key -> W) -> R) v : mean_on P ks F v -> mean_on P ks (fun w => c * F w) (c * v).
  Proof. intros H ks' w N I. rewrite kexp_scal, (H ks' w N I). reflexivity. Qed.
  Lemma mean_on_Rsum {A} ks (F : A -> (key -> W) -> R) v (l : list A) :
    (forall a, In a l -> mean_on P ks (F a) (v a)) -> mean_on P ks (fun w => Rsum (map (fun a => F a w) l)) (Rsum (map v l)).
  Proof.
    induction l as [|a l IH]; intros H.
    - cbn [map Rsum]. apply (mean_on_const P HP).
    - cbn [map Rsum]. apply (mean_on_plus ks (F a) (fun w => Rsum (map (fun a => F a w) l))).
      + apply H. left. reflexivity.
      + apply IH. intros b Hb. apply H. right. exact Hb.
  Qed.
End Lin.

Lemma Rsum_nth {A} (f : A -> R) d (l : list A) : Rsum (map f l) = Rsum (map (fun i => f (nth i l d)) (seq 0 (length l))).
Proof.
  induction l as [|a l IH]; [reflexivity|]. cbn [length seq map Rsum nth]. rewrite <- seq_shift, map_map. rewrite IH. reflexivity.
Qed.

Section AL.
  Context {W Data : Type}.
  Variable P : law W.
  Hypothesis HP : prob P.
  Variable psamp : W -> vec.
  Variable pr : vec -> W -> xr.
  Variable lik : vec -> W -> Data.
  Variable dist : Data -> xr.
  Variable cat : W -> list xr -> nat -> list nat.
  Notation core := (abc_core (Data := Data)).
  Variable inner : (key -> W) -> xr -> (nat -> R) -> key -> core -> core * xr.
  Variable ikeys : key -> list key.
  Variable K : xr -> core -> (core -> R) -> R.
  Variable ok : core -> Prop.
  Variable l : list xr.
  Variable rthr : R.
  Variable dflt : apart (Data := Data).
  Variable st : nat -> R.
  Variable n : nat.

  Notation T := (fun j => nth j l (last l NaN)).
  Notation G := (within_thr (Data := Data)).
  (** the prior draws *)
  Definition drawn_core (a b c : W) : core := ABC (psamp a) (pr (psamp a) b) (lik (psamp a) c) (dist (lik (psamp a) c)).
  Definition start_law (f : core -> R) : R := mean P (fun a => mean P (fun b => mean P (fun c => f (drawn_core a b c)))).

  Hypothesis Hn : (0 < n)%nat.
  Hypothesis Hcat : forall x, categorical_ok (fun _ => cat x).
  Hypothesis Huni : uniform_indices P cat n.
  Hypothesis Hnum : forall j, num (T j).
  Hypothesis Hdec : forall j, xleb (T (S j)) (T j) = true.
  Hypothesis Hok : forall c, ok c -> num (a_dist c).
  Hypothesis Hok0 : forall a b c, ok (drawn_core a b c).
  Hypothesis Hderived : forall k q, In q (ikeys k) -> derived k q.
  Hypothesis Hreads : forall j k c, ok c -> G (T j) c = 1 -> reads (ikeys k) (fun w => inner w (T j) st k c).
  Hypothesis Hmean : forall j k c f, ok c -> G (T j) c = 1 ->
    mean_on P (ikeys k) (fun w => f (fst (inner w (T j) st k c))) (K (T j) c f).
  Hypothesis Hkeep : forall w j k c, ok c -> G (T j) c = 1 -> ok (fst (inner w (T j) st k c)).
  Hypothesis Hinv : forall j f, start_law (fun c => G (T j) c * K (T j) c f) = start_law (fun c => G (T j) c * f c).

  Notation catw := (fun (w : key -> W) k => cat (w k)).
  Notation next := (next_threshold_scheduled l).
  Definition up (w : key -> W) := a_update (catw w) (inner w) keep_step next rthr dflt.

  Lemma catw_ok w : categorical_ok (catw w).
  Proof. intros k. apply (Hcat (w k) k). Qed.

  Definition fine (j : nat) (c : aensemble (Data := Data) * aextra) : Prop :=
    length (fst c) = n /\ ae_step (snd c) = st /\ ae_iter (snd c) = j /\ ae_thr (snd c) = T j
    /\ adapted (fst c) (snd c) /\ forall p, In p (fst c) -> ok (q_core p).

  Lemma G01 t (c : core) : G t c = 0 \/ G t c = 1.
  Proof. unfold within_thr. destruct (xleb _ _); auto. Qed.
  Lemma weight_G t (c : core) : num t -> num (a_dist c) -> weight (a_log_weight t c) = G t c.
  Proof.
    intros N1 N2. unfold a_log_weight, within_thr. rewrite (xltb_negb _ _ N1 N2). destruct (xleb _ _); cbn; [apply exp_0|reflexivity].
  Qed.
  Lemma alive_G t (c : core) : num t -> num (a_dist c) -> xltb NInf (a_log_weight t c) = true <-> G t c = 1.
  Proof.
    intros N1 N2. unfold a_log_weight, within_thr. rewrite (xltb_negb _ _ N1 N2). destruct (xleb _ _); cbn; intuition lra.
  Qed.
  Lemma dead_stays j c : num (a_dist c) -> G (T j) c = 0 -> G (T (S j)) c = 0.
  Proof.
    intros N H. unfold within_thr in *. destruct (xleb (a_dist c) (T (S j))) eqn:E; [|reflexivity].
    rewrite (xleb_trans _ _ _ E (Hdec j)) in H. lra.
  Qed.

  Lemma fine_weight j E e p : fine j (E, e) -> In p E -> weight (q_lw p) = G (T j) (q_core p) /\ q_lw p = a_log_weight (T j) (q_core p).
  Proof.
    intros (Ln & St & It & Th & Ad & O) Hp. cbn [fst snd] in *. destruct (Ad p Hp) as (_ & L & _). rewrite Th in L. rewrite L.
    split; [apply weight_G; [apply Hnum|apply Hok, O, Hp]|reflexivity].
  Qed.

  (** all dead: no resampling *)
  Lemma criterion_same (E : aensemble (Data := Data)) : E <> [] -> a_resample_criterion rthr E = resamples rthr E.
  Proof. destruct E; [congruence|reflexivity]. Qed.

  Lemma some_alive j E e : fine j (E, e) -> a_resample_criterion rthr E = true -> lw_ok (map q_lw E).
  Proof.
    intros F C. pose proof F as (Ln & St & It & Th & Ad & O). cbn [fst snd] in *.
    assert (A : List.Forall (fun x => x = NInf \/ finite x) (map q_lw E)).
    { apply Forall_forall. intros x Hx. apply in_map_iff in Hx. destruct Hx as (p & <- & Hp).
      destruct (fine_weight j E e p F Hp) as [_ ->]. unfold a_log_weight. destruct (xltb _ _); [left; reflexivity|right; exists 0; reflexivity]. }
    split; [exact A|].
    destruct (Exists_dec finite (map q_lw E)) as [X|X].
    { intros x. destruct x as [r| | |]; [left; exists r; reflexivity|right; intros [r H]; discriminate..]. }
    { exact X. }
    exfalso. destruct E as [|p E]; [cbn in Ln; lia|]. unfold a_resample_criterion, afirst_ess in C.
    destruct (Ad p (or_introl eq_refl)) as (_ & _ & Es). rewrite Es, C23_all_dead in C; [discriminate|].
    apply Forall_forall. intros x Hx. rewrite Forall_forall in A. destruct (A x Hx) as [H|H]; [exact H|].
    exfalso. apply X. apply Exists_exists. exists x. split; assumption.
  Qed.

  (** * The particles that are moved *)
  Definition rok (j : nat) (p : apart (Data := Data)) : Prop := ok (q_core p) /\ q_lw p = a_log_weight (T j) (q_core p).

  Lemma log_weight_alive j c : num (a_dist c) -> finite (a_log_weight (T j) c) -> a_log_weight (T j) c = Fin 0 /\ G (T j) c = 1.
  Proof.
    intros N [r H]. rewrite <- (weight_G _ _ (Hnum j) N). unfold a_log_weight in *. destruct (xltb _ _); [discriminate|].
    split; [reflexivity|apply exp_0].
  Qed.

  Definition picked (E : aensemble (Data := Data)) (idx : list nat) : aensemble :=
    map (fun i => let p := nth i E dflt in APart (q_core p) (q_alpha p) (q_thr p) (Fin 0) (Fin (INR (length E)))) idx.
  Definition given_idx (w : key -> W) (k : key) (E : aensemble (Data := Data)) : list nat :=
    cat (w (KSplit k (n + 2) n)) (map q_lw E) n.

  Lemma resampled_eq w j E e : fine j (E, e) ->
    a_resampled (catw w) rthr dflt E e = if resamples rthr E then picked E (given_idx w (ae_key e) E) else E.
  Proof.
    intros (Ln & _). cbn [fst] in Ln. unfold a_resampled. rewrite criterion_same by (intros ->; cbn in Ln; lia).
    destruct (resamples rthr E); [|reflexivity]. unfold a_resample, picked, given_idx. rewrite Ln. reflexivity.
  Qed.

  Lemma given_ok w j E e : fine j (E, e) -> resamples rthr E = true ->
    let idx := given_idx w (ae_key e) E in
    length idx = n /\ forall i, In i idx -> (i < n)%nat /\ finite (q_lw (nth i E dflt)).
  Proof.
    intros F C idx. pose proof F as (Ln & _). cbn [fst] in Ln.
    assert (C' : a_resample_criterion rthr E = true) by (rewrite criterion_same; [exact C|intros ->; cbn in Ln; lia]).
    destruct (catw_ok w (KSplit (ae_key e) (n + 2) n) (map q_lw E) n) as (L & R & A); [rewrite map_length; exact Ln|].
    specialize (A (some_alive j E e F C')). fold (given_idx w (ae_key e) E) in L, R, A. fold idx in L, R, A.
    split; [exact L|]. intros i Hi. rewrite Forall_forall in R, A. specialize (R i Hi). specialize (A i Hi). split; [exact R|].
    rewrite (nth_indep _ NInf (q_lw dflt)), map_nth in A by (rewrite map_length; lia). exact A.
  Qed.

  Lemma moved_rok w j E e : fine j (E, e) -> forall p, In p (a_resampled (catw w) rthr dflt E e) -> rok j p.
  Proof.
    intros F p Hp. pose proof F as (Ln & St & It & Th & Ad & O). cbn [fst snd] in *.
    rewrite (resampled_eq w j E e F) in Hp. destruct (resamples rthr E) eqn:C.
    - apply in_map_iff in Hp. destruct Hp as (i & <- & Hi). destruct (given_ok w j E e F C) as [_ H]. destruct (H i Hi) as [Li Fi].
      assert (I : In (nth i E dflt) E) by (apply nth_In; lia).
      destruct (fine_weight j E e _ F I) as [_ L]. split; [exact (O _ I)|]. cbn [q_core q_lw]. symmetry.
      rewrite L in Fi. apply (log_weight_alive j _ (Hok _ (O _ I)) Fi).
    - destruct (fine_weight j E e p F Hp) as [_ L]. split; [apply O, Hp|exact L].
  Qed.

  Definition fwd (w : key -> W) (j : nat) (k : key) (p : apart (Data := Data)) : apart := a_forward (inner w) (T j) st k p.

  Lemma rok_cases j p : rok j p -> (xltb NInf (q_lw p) = true /\ G (T j) (q_core p) = 1) \/ (xltb NInf (q_lw p) = false /\ G (T j) (q_core p) = 0).
  Proof.
    intros [O L]. rewrite L. pose proof (alive_G (T j) (q_core p) (Hnum j) (Hok _ O)) as A.
    destruct (xltb NInf _) eqn:X; [left; split; [reflexivity|apply A; reflexivity]|right; split; [reflexivity|]].
    destruct (G01 (T j) (q_core p)) as [Z|Z]; [exact Z|]. apply A in Z. discriminate.
  Qed.

  Lemma fwd_ok w j k p : rok j p -> ok (q_core (fwd w j k p)).
  Proof.
    intros Rp. unfold fwd, a_forward. destruct (rok_cases j p Rp) as [[-> g]|[-> _]]; [|apply Rp].
    pose proof (Hkeep w j k (q_core p) (proj1 Rp) g) as H. destruct (inner w (T j) st k (q_core p)) as [c al]. exact H.
  Qed.

  (** what the next threshold leaves of [h] *)
  Definition cut (j : nat) (h : core -> R) (c : core) : R := G (T (S j)) c * h c.
  Definition Q (j : nat) (h : core -> R) (c : core) : R := K (T j) c (cut j h).

  Lemma fwd_reads j k p : rok j p -> reads (ikeys k) (fun w => fwd w j k p).
  Proof.
    intros Rp w w' E. unfold fwd, a_forward. destruct (rok_cases j p Rp) as [[-> g]|[-> _]]; [|reflexivity].
    pose proof (Hreads j k (q_core p) (proj1 Rp) g w w' E) as H. cbv beta in H. rewrite H. reflexivity.
  Qed.

  Lemma fwd_mean j k p h : rok j p ->
    mean_on P (ikeys k) (fun w => cut j h (q_core (fwd w j k p))) (weight (q_lw p) * Q j h (q_core p)).
  Proof.
    intros Rp.
    assert (Wt : weight (q_lw p) = G (T j) (q_core p)).
    { destruct Rp as [O L]. rewrite L. apply weight_G; [apply Hnum|apply Hok, O]. }
    unfold fwd, a_forward. rewrite Wt. destruct (rok_cases j p Rp) as [[-> g]|[-> g]]; rewrite g.
    - rewrite Rmult_1_l. eapply mean_on_ext; [|apply (Hmean j k (q_core p) (cut j h) (proj1 Rp) g)].
      intros w. cbv beta. destruct (inner w (T j) st k (q_core p)) as [c al]. reflexivity.
    - rewrite Rmult_0_l. unfold cut. rewrite (dead_stays j _ (Hok _ (proj1 Rp)) g), Rmult_0_l. apply (mean_on_const P HP).
  Qed.

  (** * One update *)
  Definition mkeys (k : key) : list key := flat_map (fun i => ikeys (KSplit k (n + 2) i)) (seq 0 n).
  Definition ukeys (k : key) : list key := KSplit k (n + 2) n :: mkeys k.
  Lemma mkeys_in k q : In q (mkeys k) -> exists i, (i < n)%nat /\ derived (KSplit k (n + 2) i) q.
  Proof.
    intros H. apply in_flat_map in H. destruct H as (i & Hi & H). apply in_seq in Hi. exists i. split; [lia|apply Hderived, H].
  Qed.
  Lemma ukeys_in k q : In q (ukeys k) -> exists i, (i < n + 1)%nat /\ derived (KSplit k (n + 2) i) q.
  Proof.
    intros [<-|H]; [exists n; split; [lia|constructor]|]. apply mkeys_in in H. destruct H as (i & Hi & H). exists i. split; [lia|exact H].
  Qed.

  Definition moved_sum (w : key -> W) (j : nat) (k : key) (h : core -> R) (Rs : aensemble (Data := Data)) : R :=
    Rsum (map (fun i => cut j h (q_core (fwd w j (KSplit k (n + 2) i) (nth i Rs dflt)))) (seq 0 n)).

  Lemma moved_sum_mean j k h Rs : length Rs = n -> (forall p, In p Rs -> rok j p) ->
    mean_on P (mkeys k) (fun w => moved_sum w j k h Rs) (alive_sum (Q j h) Rs).
  Proof.
    intros L R. unfold moved_sum, alive_sum. rewrite (Rsum_nth (fun p => weight (q_lw p) * Q j h (q_core p)) dflt), L.
    apply (mean_on_Rsum P HP (mkeys k) (fun i w => cut j h (q_core (fwd w j (KSplit k (n + 2) i) (nth i Rs dflt))))
             (fun i => weight (q_lw (nth i Rs dflt)) * Q j h (q_core (nth i Rs dflt)))).
    intros i Hi. apply in_seq in Hi. apply (mean_on_incl P (ikeys (KSplit k (n + 2) i))).
    - intros q Hq. apply in_flat_map. exists i. split; [apply in_seq; lia|exact Hq].
    - apply fwd_mean. apply R, nth_In. lia.
  Qed.

  Lemma up_fine w j E e : fine j (E, e) -> fine (S j) (up w E e) /\ ae_key (snd (up w E e)) = KSplit (ae_key e) (n + 2) (n + 1).
  Proof.
    intros F. pose proof F as (Ln & St & It & Th & Ad & O). cbn [fst snd] in *.
    split; [|unfold up, a_update, a_adapt; cbn [snd ae_key]; rewrite Ln; reflexivity].
    split; [unfold up; rewrite a_update_length by apply catw_ok; exact Ln|].
    split; [exact St|]. split; [cbn; rewrite It; reflexivity|]. split; [cbn; unfold next_threshold_scheduled; rewrite It; reflexivity|].
    split; [apply adapt_adapted|].
    intros p Hp. apply (In_nth _ _ dflt) in Hp. destruct Hp as (i & Hi & <-).
    unfold up in *. rewrite a_update_length in Hi by apply catw_ok.
    rewrite (proj1 (nth_update _ _ _ _ _ _ (catw_ok w) E e i Hi)), (nth_moved _ _ _ _ (catw_ok w) E e i Hi). rewrite Th, St.
    apply fwd_ok. apply (moved_rok w j E e F). apply nth_In. rewrite a_resampled_length by apply catw_ok. exact Hi.
  Qed.

  Lemma up_sum w j E e h : fine j (E, e) ->
    alive_sum h (fst (up w E e)) = moved_sum w j (ae_key e) h (a_resampled (catw w) rthr dflt E e).
  Proof.
    intros F. pose proof F as (Ln & St & It & Th & Ad & O). cbn [fst snd] in *.
    destruct (up_fine w j E e F) as [F' _]. pose proof F' as (Ln' & _).
    unfold alive_sum, moved_sum. rewrite (Rsum_nth _ dflt), Ln'. apply Rsum_ext. intros i Hi. apply in_seq in Hi.
    assert (I : In (nth i (fst (up w E e)) dflt) (fst (up w E e))) by (apply nth_In; lia).
    assert (Hw : weight (q_lw (nth i (fst (up w E e)) dflt)) = G (T (S j)) (q_core (nth i (fst (up w E e)) dflt))).
    { destruct (up w E e) as [E' e'] eqn:X. apply (fine_weight (S j) E' e'); [exact F'|exact I]. }
    rewrite Hw. unfold cut. unfold up.
    rewrite (proj1 (nth_update _ _ _ _ _ _ (catw_ok w) E e i ltac:(lia))), (nth_moved _ _ _ _ (catw_ok w) E e i ltac:(lia)).
    rewrite Th, St, Ln. reflexivity.
  Qed.

  Lemma alive_weights j E e : fine j (E, e) -> forall p, In p E -> weight (q_lw p) = 0 \/ weight (q_lw p) = 1.
  Proof. intros F p Hp. destruct (fine_weight j E e p F Hp) as [-> _]. apply G01. Qed.
  Lemma alive_pos (E : aensemble (Data := Data)) : (forall p, In p E -> weight (q_lw p) = 0 \/ weight (q_lw p) = 1) -> 0 <= alive E.
  Proof.
    unfold alive, alive_sum. induction E as [|p E IH]; intros H; cbn [map Rsum]; [lra|].
    specialize (IH (fun q Hq => H q (or_intror Hq))). destruct (H p (or_introl eq_refl)) as [-> | ->]; lra.
  Qed.
  Lemma alive_zero (E : aensemble (Data := Data)) h : (forall p, In p E -> weight (q_lw p) = 0 \/ weight (q_lw p) = 1) -> alive E = 0 -> alive_sum h E = 0.
  Proof.
    induction E as [|p E IH]; intros H Z; [reflexivity|].
    pose proof (alive_pos E (fun q Hq => H q (or_intror Hq))) as A.
    unfold alive, alive_sum in Z, A, IH |- *. cbn [map Rsum] in *.
    destruct (H p (or_introl eq_refl)) as [W0|W0]; rewrite W0 in Z |- *; [|lra].
    rewrite IH; [lra|intros q Hq; apply H; right; exact Hq|lra].
  Qed.
  Lemma alive_cancel j E e h : fine j (E, e) -> alive E * alive_mean h E = alive_sum h E.
  Proof.
    intros F. unfold alive_mean. destruct (Req_EM_T (alive E) 0) as [Z|Z].
    - rewrite (alive_zero E h (alive_weights j E e F) Z), Z. unfold Rdiv. ring.
    - field. exact Z.
  Qed.
  Lemma share_sum j E E' e' h : fine j (E', e') ->
    share rthr E E' * alive_mean h E' = / (if resamples rthr E then INR (length E) else alive E) * alive_sum h E'.
  Proof.
    intros F. rewrite <- (alive_cancel j E' e' h F). unfold share, Rdiv. ring.
  Qed.

  (** the categorical draw *)
  Lemma Rsum_filter {A} (b : A -> bool) (f : A -> R) (r : list A) :
    Rsum (map f (filter b r)) = Rsum (map (fun x => (if b x then 1 else 0) * f x) r).
  Proof. induction r as [|x r IH]; [reflexivity|]. cbn [filter map Rsum]. destruct (b x); cbn [map Rsum]; rewrite IH; lra. Qed.
  Lemma Rsum_ones {A} (r : list A) : Rsum (map (fun _ => 1) r) = INR (length r).
  Proof. induction r as [|x r IH]; [reflexivity|]. cbn [map Rsum length]. rewrite IH, S_INR. lra. Qed.
  Lemma expect_repeat_sum {A} (d : law A) (f : A -> R) : prob d -> forall m, expect (repeat d m) (fun r => Rsum (map f r)) = INR m * mean d f.
  Proof.
    intros Pd. induction m as [|m IH]; [cbn; ring|]. cbn [repeat expect].
    rewrite (mean_fext _ _ (fun a => f a + INR m * mean d f)).
    - rewrite mean_plus, mean_const by exact Pd. rewrite S_INR. ring.
    - intros a. transitivity (expect (repeat d m) (fun r => f a + 1 * Rsum (map f r))).
      + cbn [map Rsum]. f_equal. extensionality r. ring.
      + rewrite expect_affine, IH; [ring|]. apply Forall_forall. intros x Hx. apply repeat_spec in Hx. subst x. exact Pd.
  Qed.

  Definition flags (E : aensemble (Data := Data)) : list bool := map (fun p => xltb NInf (q_lw p)) E.
  Lemma flags_lw j E e : fine j (E, e) -> map q_lw E = map (fun b : bool => if b then Fin 0 else NInf) (flags E).
  Proof.
    intros F. unfold flags. rewrite map_map. apply map_ext_in. intros p Hp. destruct (fine_weight j E e p F Hp) as [_ ->].
    unfold a_log_weight. destruct (xltb _ _); reflexivity.
  Qed.
  Lemma flag_weight j E e i : fine j (E, e) -> (i < length E)%nat -> (if nth i (flags E) false then 1 else 0) = weight (q_lw (nth i E dflt)).
  Proof.
    intros F Hi. unfold flags. rewrite (nth_indep _ false (xltb NInf (q_lw dflt))) by (rewrite map_length; exact Hi).
    rewrite (map_nth (fun p => xltb NInf (q_lw p))). destruct (fine_weight j E e _ F (nth_In E dflt Hi)) as [_ L]. rewrite L.
    unfold a_log_weight. destruct (xltb (T j) _); cbn; [reflexivity|symmetry; apply exp_0].
  Qed.
  Lemma flag_sum j E e h : fine j (E, e) ->
    Rsum (map (fun i => h (q_core (nth i E dflt))) (filter (fun i => nth i (flags E) false) (seq 0 (length (flags E))))) = alive_sum h E.
  Proof.
    intros F. rewrite (Rsum_filter (fun i => nth i (flags E) false)). unfold alive_sum. rewrite (Rsum_nth _ dflt).
    unfold flags at 2. rewrite map_length. apply Rsum_ext. intros i Hi. apply in_seq in Hi. rewrite (flag_weight j E e i F) by lia. reflexivity.
  Qed.
  Lemma flag_count j E e : fine j (E, e) -> INR (length (filter (fun i => nth i (flags E) false) (seq 0 (length (flags E))))) = alive E.
  Proof. intros F. rewrite <- Rsum_ones. apply (flag_sum j E e (fun _ => 1) F). Qed.

  Lemma index_mean j E e h : fine j (E, e) -> mean (index_law (flags E)) (fun i => h (q_core (nth i E dflt))) = alive_mean h E.
  Proof.
    intros F. unfold index_law, mean. rewrite map_map. cbn [fst snd]. rewrite (flag_count j E e F).
    rewrite (Rsum_scal (/ alive E) (fun i => h (q_core (nth i E dflt)))), (flag_sum j E e h F). unfold alive_mean, Rdiv. ring.
  Qed.

  Lemma some_flag j E e : fine j (E, e) -> resamples rthr E = true -> In true (flags E) /\ 0 < alive E.
  Proof.
    intros F C. pose proof F as (Ln & _). cbn [fst] in Ln.
    assert (C' : a_resample_criterion rthr E = true) by (rewrite criterion_same; [exact C|intros ->; cbn in Ln; lia]).
    destruct (some_alive j E e F C') as [_ X]. apply Exists_exists in X. destruct X as (x & Hx & Fx).
    apply in_map_iff in Hx. destruct Hx as (p & <- & Hp). split.
    - unfold flags. apply in_map_iff. exists p. split; [|exact Hp]. destruct Fx as [r ->]. reflexivity.
    - destruct (Rle_lt_or_eq_dec 0 (alive E) (alive_pos E (alive_weights j E e F))) as [A|A]; [exact A|]. exfalso.
      assert (Z : alive_sum (fun c => 1) E = 0) by (symmetry; exact A).
      assert (W0 : weight (q_lw p) <> 0) by (destruct Fx as [r ->]; cbn; pose proof (exp_pos r); lra).
      destruct (alive_weights j E e F p Hp) as [V|V]; [contradiction|].
      apply in_split in Hp. destruct Hp as (a & b & ->). unfold alive_sum in Z. rewrite map_app in Z. cbn [map] in Z.
      rewrite Rsum_app in Z. cbn [Rsum] in Z. rewrite V in Z.
      pose proof (alive_pos a (fun q Hq => alive_weights j _ e F q (in_or_app a (p :: b) q (or_introl Hq)))) as A1.
      pose proof (alive_pos b (fun q Hq => alive_weights j _ e F q (in_or_app a (p :: b) q (or_intror (or_intror Hq))))) as A2.
      unfold alive, alive_sum in A1, A2. lra.
  Qed.

  Lemma index_prob j E e : fine j (E, e) -> resamples rthr E = true -> prob (index_law (flags E)).
  Proof.
    intros F C. destruct (some_flag j E e F C) as [_ A].
    assert (M : mean (index_law (flags E)) (fun _ => 1) = 1).
    { pose proof (index_mean j E e (fun _ => 1) F) as H. rewrite H. unfold alive_mean. fold (alive E). unfold Rdiv. apply Rinv_r. lra. }
    unfold prob. unfold mean in M. rewrite <- M. f_equal. apply map_ext. intros [i q]. cbn. ring.
  Qed.

  Lemma alive_picked E idx h : alive_sum h (picked E idx) = Rsum (map (fun i => h (q_core (nth i E dflt))) idx).
  Proof.
    unfold alive_sum, picked. rewrite map_map. cbn [q_core q_lw weight]. apply Rsum_ext. intros i _. rewrite exp_0. ring.
  Qed.

  (** * The expected value of one update *)
  Lemma step_mean_on j E e h : fine j (E, e) ->
    mean_on P (ukeys (ae_key e)) (fun w => share rthr E (fst (up w E e)) * alive_mean h (fst (up w E e))) (alive_mean (Q j h) E).
  Proof.
    intros F. pose proof F as (Ln & _). cbn [fst] in Ln.
    apply (mean_on_ext P _ (fun w => / (if resamples rthr E then INR (length E) else alive E)
             * moved_sum w j (ae_key e) h (if resamples rthr E then picked E (given_idx w (ae_key e) E) else E))).
    { intros w. rewrite <- (resampled_eq w j E e F), <- (up_sum w j E e h F).
      destruct (up_fine w j E e F) as [F' _]. destruct (up w E e) as [E' e']. symmetry. apply (share_sum (S j) E E' e' h F'). }
    destruct (resamples rthr E) eqn:C.
    - assert (Np : 0 < INR n) by (apply lt_0_INR; exact Hn).
      change (ukeys (ae_key e)) with ([KSplit (ae_key e) (n + 2) n] ++ mkeys (ae_key e)).
      apply (mean_on_bind P [KSplit (ae_key e) (n + 2) n] (mkeys (ae_key e)) (fun w => given_idx w (ae_key e) E)
               (fun idx w => / INR (length E) * moved_sum w j (ae_key e) h (picked E idx))
               (fun idx => / INR (length E) * alive_sum (Q j h) (picked E idx))).
      + intros w w' Hw. unfold given_idx. rewrite (Hw _ (or_introl eq_refl)). reflexivity.
      + intros q [<-|[]] H. apply mkeys_in in H. destruct H as (i & Hi & H). apply derived_split_inv in H. lia.
      + intros w. apply mean_on_scal. apply moved_sum_mean.
        * unfold picked. rewrite map_length. apply (given_ok w j E e F C).
        * intros p Hp. apply (moved_rok w j E e F). rewrite (resampled_eq w j E e F), C. exact Hp.
      + destruct (drawn_key P HP (KSplit (ae_key e) (n + 2) n) (fun x => cat x (map q_lw E) n)) as [_ D].
        specialize (D (fun idx => / INR (length E) * alive_sum (Q j h) (picked E idx))). cbv beta in D.
        assert (V : mean P (fun x => / INR (length E) * alive_sum (Q j h) (picked E (cat x (map q_lw E) n))) = alive_mean (Q j h) E).
        { rewrite (flags_lw j E e F).
          pose proof (Huni (flags E)) as U. unfold flags in U at 1. rewrite map_length in U.
          rewrite (U Ln (proj1 (some_flag j E e F C)) (fun idx => / INR (length E) * alive_sum (Q j h) (picked E idx))).
          transitivity (expect (repeat (index_law (flags E)) n) (fun idx => 0 + / INR n * Rsum (map (fun i => Q j h (q_core (nth i E dflt))) idx))).
          - f_equal. extensionality idx. rewrite alive_picked, Ln. ring.
          - rewrite expect_affine, (expect_repeat_sum _ (fun i => Q j h (q_core (nth i E dflt)))), (index_mean j E e (Q j h) F).
            + field. lra.
            + apply (index_prob j E e F C).
            + apply Forall_forall. intros d Hd. apply repeat_spec in Hd. subst d. apply (index_prob j E e F C). }
        rewrite <- V. exact D.
    - unfold alive_mean, Rdiv. rewrite (Rmult_comm (alive_sum (Q j h) E)). apply mean_on_scal.
      apply (mean_on_incl P (mkeys (ae_key e))); [intros q Hq; right; exact Hq|].
      apply moved_sum_mean; [exact Ln|]. intros p Hp. destruct (fine_weight j E e p F Hp) as [_ L]. split; [apply F, Hp|exact L].
  Qed.

  Lemma up_reads j E e : fine j (E, e) -> reads (ukeys (ae_key e)) (fun w => up w E e).
  Proof.
    intros F w w' Hw. pose proof F as (Ln & St & It & Th & Ad & O). cbn [fst snd] in *.
    assert (Rs : a_resampled (catw w) rthr dflt E e = a_resampled (catw w') rthr dflt E e).
    { rewrite !(resampled_eq _ j E e F). unfold given_idx. rewrite (Hw (KSplit (ae_key e) (n + 2) n)) by (left; reflexivity). reflexivity. }
    assert (Mv : a_moved (catw w) (inner w) rthr dflt E e = a_moved (catw w') (inner w') rthr dflt E e).
    { unfold a_moved. cbv zeta. rewrite Rs, Ln. apply map_ext_in. intros [i p] H. cbn [fst snd].
      rewrite Th, St. apply (fwd_reads j (KSplit (ae_key e) (n + 2) i) p).
      - apply (moved_rok w' j E e F). apply (in_combine_r _ _ _ _ H).
      - intros q Hq. apply Hw. right. apply in_flat_map. exists i. split; [apply (in_combine_l _ _ _ _ H)|exact Hq]. }
    unfold up, a_update. rewrite Rs, Mv. reflexivity.
  Qed.

  (** * Runs *)
  Fixpoint rest (w : key -> W) (m : nat) (c : aensemble (Data := Data) * aextra) : list (aensemble (Data := Data)) :=
    match m with
    | O => []
    | S m' => let c' := up w (fst c) (snd c) in fst c' :: rest w m' c'
    end.
  Definition est (w : key -> W) (m : nat) (c : aensemble (Data := Data) * aextra) (f : core -> R) : R :=
    shares rthr (fst c) (rest w m c) * alive_mean f (last (fst c :: rest w m c) []).
  Fixpoint Qs (j m : nat) (f : core -> R) : core -> R :=
    match m with O => f | S m' => Q j (Qs (S j) m' f) end.
  Fixpoint rkeys (m : nat) (k : key) : list key :=
    match m with O => [] | S m' => ukeys k ++ rkeys m' (KSplit k (n + 2) (n + 1)) end.

  Lemma rkeys_derived m : forall k q, In q (rkeys m k) -> derived k q.
  Proof.
    induction m as [|m IH]; intros k q H; [contradiction|]. cbn [rkeys] in H. apply in_app_or in H. destruct H as [H|H].
    - apply ukeys_in in H. destruct H as (i & _ & H). apply (derived_trans _ (KSplit k (n + 2) i)); [repeat constructor|exact H].
    - apply IH in H. apply (derived_trans _ (KSplit k (n + 2) (n + 1))); [repeat constructor|exact H].
  Qed.

  Lemma est_step w m E e f : est w (S m) (E, e) f = share rthr E (fst (up w E e)) * est w m (up w E e) f.
  Proof. unfold est. cbn [rest shares fst snd]. cbv zeta. cbn [shares last]. rewrite Rmult_assoc. reflexivity. Qed.

  Lemma run_mean_on m : forall j E e f, fine j (E, e) ->
    mean_on P (rkeys m (ae_key e)) (fun w => est w m (E, e) f) (alive_mean (Qs j m f) E).
  Proof.
    induction m as [|m IH]; intros j E e f F.
    - unfold est. cbn [rest shares rkeys Qs last fst]. apply (mean_on_ext P _ (fun _ => alive_mean f E)); [intros w; ring|]. apply (mean_on_const P HP).
    - cbn [rkeys Qs].
      apply (mean_on_ext P _ (fun w => share rthr E (fst (up w E e)) * est w m (up w E e) f)).
      { intros w. symmetry. apply est_step. }
      apply (mean_on_bind P (ukeys (ae_key e)) (rkeys m (KSplit (ae_key e) (n + 2) (n + 1))) (fun w => up w E e)
               (fun c w => share rthr E (fst c) * est w m c f) (fun c => share rthr E (fst c) * alive_mean (Qs (S j) m f) (fst c))).
      + apply (up_reads j), F.
      + intros q H1 H2. apply ukeys_in in H1. apply rkeys_derived in H2. destruct H1 as (i & Hi & H1).
        apply (incomp_children (ae_key e) (n + 2) i (n + 2) (n + 1) ltac:(lia) q); [exact H1|exact H2].
      + intros w. destruct (up_fine w j E e F) as [F' Kk]. destruct (up w E e) as [E' e']. cbn [fst snd] in *. rewrite <- Kk.
        apply mean_on_scal. apply (IH (S j) E' e' f F').
      + apply (step_mean_on j E e (Qs (S j) m f) F).
  Qed.

  Lemma cut_plus j f c : G (T (S j)) c * f c = G (T j) c * cut j f c \/ ~ num (a_dist c).
  Proof.
    destruct (a_dist c) eqn:D; [left|left|left|right; intros N; apply N; reflexivity];
      (assert (N : num (a_dist c)) by (rewrite D; discriminate); unfold cut; destruct (G01 (T j) c) as [Z|Z]; rewrite Z;
       [rewrite (dead_stays j c N Z)|]; ring).
  Qed.

  Lemma start_law_Qs m : forall j f, start_law (fun c => G (T j) c * Qs j m f c) = start_law (fun c => G (T (j + m)%nat) c * f c).
  Proof.
    induction m as [|m IH]; intros j f; [rewrite Nat.add_0_r; reflexivity|].
    cbn [Qs]. unfold Q at 1. rewrite Hinv. rewrite <- Nat.add_succ_comm, <- (IH (S j) f).
    unfold start_law. apply mean_fext. intros a. apply mean_fext. intros b. apply mean_fext. intros c.
    destruct (cut_plus j (Qs (S j) m f) (drawn_core a b c)) as [E|N]; [symmetry; exact E|].
    exfalso. apply N, Hok, Hok0.
  Qed.

  (** * Whole runs *)
  Definition begin (w : key -> W) (k : key) : aensemble (Data := Data) * aextra :=
    abc_smc_begin (fun k => psamp (w k)) (fun v k => pr v (w k)) (fun v k => lik v (w k)) dist l n k st.
  Definition k1 (k : key) : key := KSplit k 2 0.
  Definition k2 (k : key) : key := KSplit (k1 k) (n + 1) n.
  Definition core_at (w : key -> W) (k : key) (i : nat) : core :=
    drawn_core (w (KSplit (KSplit k 2 1) n i)) (w (KSplit (k1 k) (n + 1) i)) (w (KSplit (k2 k) (n + 1) i)).
  Definition ckeys (k : key) (i : nat) : list key :=
    [KSplit (KSplit k 2 1) n i] ++ ([KSplit (k1 k) (n + 1) i] ++ [KSplit (k2 k) (n + 1) i]).
  Definition bkeys (k : key) : list key := flat_map (ckeys k) (seq 0 n).

  Lemma core_drawn k i : drawn P (ckeys k i) (fun w => core_at w k i) start_law.
  Proof.
    unfold ckeys, core_at, start_law.
    apply (drawn_bind P [KSplit (KSplit k 2 1) n i] ([KSplit (k1 k) (n + 1) i] ++ [KSplit (k2 k) (n + 1) i]) (fun w => w (KSplit (KSplit k 2 1) n i))
             (fun a w => drawn_core a (w (KSplit (k1 k) (n + 1) i)) (w (KSplit (k2 k) (n + 1) i)))
             (fun phi => mean P phi) (fun a phi => mean P (fun b => mean P (fun c => phi (drawn_core a b c))))).
    - apply (drawn_key P HP (KSplit (KSplit k 2 1) n i) (fun x => x)).
    - unfold k2, k1. intros q [<-|[]] [H|[H|[]]]; [injection H; intros; discriminate|apply (f_equal ksize) in H; cbn in H; lia].
    - intros w. apply (drawn_bind P [KSplit (k1 k) (n + 1) i] [KSplit (k2 k) (n + 1) i] (fun w' => w' (KSplit (k1 k) (n + 1) i))
             (fun b w' => drawn_core (w (KSplit (KSplit k 2 1) n i)) b (w' (KSplit (k2 k) (n + 1) i)))
             (fun phi => mean P phi) (fun b phi => mean P (fun c => phi (drawn_core (w (KSplit (KSplit k 2 1) n i)) b c)))).
      + apply (drawn_key P HP (KSplit (k1 k) (n + 1) i) (fun x => x)).
      + unfold k2, k1. intros q [<-|[]] [H|[]]. apply (f_equal ksize) in H. cbn in H. lia.
      + intros w'. apply (drawn_key P HP (KSplit (k2 k) (n + 1) i) (fun c => drawn_core _ _ c)).
  Qed.

  Lemma combine_seq_map {A} (f : nat -> A) m : forall a, combine (seq a m) (map f (seq a m)) = map (fun i => (i, f i)) (seq a m).
  Proof. induction m as [|m IH]; intros a; cbn; [reflexivity|]. rewrite IH. reflexivity. Qed.

  Lemma begin_cores w k : map q_core (fst (begin w k)) = map (core_at w k) (seq 0 n).
  Proof.
    unfold begin, abc_smc_begin, a_startup, a_adapt, a_prestart, prior_values. cbv zeta. cbn [fst snd].
    rewrite !map_map. cbn [q_core]. rewrite map_length, seq_length, combine_seq_map, map_map. reflexivity.
  Qed.

  Lemma begin_fine w k : fine 0 (begin w k) /\ ae_key (snd (begin w k)) = KSplit (k2 k) (n + 1) n.
  Proof.
    assert (Ln : length (fst (begin w k)) = n) by (rewrite <- (map_length q_core), begin_cores, map_length, seq_length; reflexivity).
    split.
    - split; [exact Ln|]. split; [reflexivity|]. split; [reflexivity|]. split; [reflexivity|].
      split; [apply startup_adapted|]. intros p Hp. apply (in_map q_core) in Hp. rewrite begin_cores in Hp.
      apply in_map_iff in Hp. destruct Hp as (i & <- & _). apply Hok0.
    - unfold begin, abc_smc_begin, a_startup, a_adapt, prior_values. cbn [fst snd ae_key]. rewrite map_length, seq_length. reflexivity.
  Qed.

  Lemma begin_sum w k h : alive_sum h (fst (begin w k)) = Rsum (map (fun i => G (T 0%nat) (core_at w k i) * h (core_at w k i)) (seq 0 n)).
  Proof.
    transitivity (Rsum (map (fun c => G (T 0%nat) c * h c) (map q_core (fst (begin w k))))).
    - destruct (begin_fine w k) as [F _]. rewrite map_map. unfold alive_sum. apply Rsum_ext. intros p Hp.
      destruct (begin w k) as [E e]. destruct (fine_weight 0 E e p F Hp) as [-> _]. reflexivity.
    - rewrite begin_cores, map_map. reflexivity.
  Qed.

  Lemma begin_reads k : reads (bkeys k) (fun w => begin w k).
  Proof.
    intros w w' Hw.
    assert (H : forall i q, In i (seq 0 n) -> In q (ckeys k i) -> w q = w' q).
    { intros i q Hi Hq. apply Hw. apply in_flat_map. exists i. split; assumption. }
    assert (V : map (fun i => psamp (w (KSplit (KSplit k 2 1) n i))) (seq 0 n) = map (fun i => psamp (w' (KSplit (KSplit k 2 1) n i))) (seq 0 n)).
    { apply map_ext_in. intros i Hi. rewrite (H i _ Hi (or_introl eq_refl)). reflexivity. }
    unfold begin, abc_smc_begin, prior_values. cbn [fst snd]. rewrite V.
    set (vs := map _ (seq 0 n)). assert (L : length vs = n) by (unfold vs; rewrite map_length, seq_length; reflexivity).
    assert (E : forall t, a_prestart (fun v k => pr v (w k)) (fun v k => lik v (w k)) dist t vs (KSplit k 2 0)
                = a_prestart (fun v k => pr v (w' k)) (fun v k => lik v (w' k)) dist t vs (KSplit k 2 0)).
    { intros t. unfold a_prestart. cbv zeta. rewrite L. apply map_ext_in. intros [i v] Hi. apply in_combine_l in Hi. cbn [fst snd].
      pose proof (H i (KSplit (k1 k) (n + 1) i) Hi (or_intror (or_introl eq_refl))) as A1.
      pose proof (H i (KSplit (k2 k) (n + 1) i) Hi (or_intror (or_intror (or_introl eq_refl)))) as A2.
      unfold k2, k1 in A1, A2. rewrite A1, A2. reflexivity. }
    unfold a_startup. rewrite E. reflexivity.
  Qed.

  Lemma bkeys_fresh k q : In q (bkeys k) -> derived (KSplit (k2 k) (n + 1) n) q -> False.
  Proof.
    intros H D. apply in_flat_map in H. destruct H as (i & Hi & H). apply in_seq in Hi.
    assert (D2 : derived (k2 k) q) by (eapply derived_trans; [|exact D]; repeat constructor).
    assert (D1 : derived (k1 k) q) by (eapply derived_trans; [|exact D2]; unfold k2; repeat constructor).
    destruct H as [<-|[<-|[<-|[]]]].
    - apply (incomp_children k 2 0 2 1 ltac:(lia) (KSplit (KSplit k 2 1) n i)); [exact D1|repeat constructor].
    - unfold k2 in D2. apply derived_split_inv in D2. lia.
    - apply derived_split_inv in D. lia.
  Qed.

  Definition recorded (w : key -> W) (k : key) (J : nat) : list (aensemble (Data := Data)) := fst (begin w k) :: rest w J (begin w k).

  (** without invariance: the kernels and thresholds in turn *)
  Theorem abc_run_value J k f : has_mean P (fun w => abc_estimate rthr (recorded w k J) f) (start_law (fun c => G (T 0%nat) c * Qs 0 J f c)).
  Proof.
    exists (bkeys k ++ rkeys J (KSplit (k2 k) (n + 1) n)).
    assert (Np : 0 < INR n) by (apply lt_0_INR; exact Hn).
    apply (mean_on_ext P _ (fun w => alive (fst (begin w k)) / INR n * est w J (begin w k) f)).
    { intros w. unfold abc_estimate, recorded, mass, est. destruct (begin_fine w k) as [(Ln & _) _]. rewrite Ln. ring. }
    apply (mean_on_bind P (bkeys k) (rkeys J (KSplit (k2 k) (n + 1) n)) (fun w => begin w k)
             (fun c w => alive (fst c) / INR n * est w J c f) (fun c => alive (fst c) / INR n * alive_mean (Qs 0 J f) (fst c))).
    - apply begin_reads.
    - intros q H1 H2. apply (bkeys_fresh k q H1), (rkeys_derived J _ _ H2).
    - intros w. destruct (begin_fine w k) as [F Kk]. destruct (begin w k) as [E e]. cbn [fst snd] in *. rewrite <- Kk.
      apply mean_on_scal. apply (run_mean_on J 0 E e f F).
    - apply (mean_on_ext P _ (fun w => / INR n * Rsum (map (fun i => G (T 0%nat) (core_at w k i) * Qs 0 J f (core_at w k i)) (seq 0 n)))).
      { intros w. rewrite <- begin_sum. destruct (begin_fine w k) as [F _]. destruct (begin w k) as [E e]. cbn [fst].
        rewrite <- (alive_cancel 0 E e (Qs 0 J f) F). unfold Rdiv. ring. }
      assert (V : start_law (fun c => G (T 0%nat) c * Qs 0 J f c) = / INR n * Rsum (map (fun _ => start_law (fun c => G (T 0%nat) c * Qs 0 J f c)) (seq 0 n))).
      { rewrite (Rsum_ext _ (fun i : nat => start_law (fun c => G (T 0%nat) c * Qs 0 J f c) * 1)) by (intros; ring).
        rewrite (Rsum_scal _ (fun _ => 1)), Rsum_ones, seq_length. field. lra. }
      rewrite V. apply (mean_on_scal P (bkeys k) (/ INR n)).
      apply (mean_on_Rsum P HP (bkeys k) (fun i w => G (T 0%nat) (core_at w k i) * Qs 0 J f (core_at w k i))).
      intros i Hi. apply (mean_on_incl P (ckeys k i)); [intros q Hq; apply in_flat_map; exists i; split; assumption|].
      apply (proj2 (core_drawn k i) (fun c => G (T 0%nat) c * Qs 0 J f c)).
  Qed.

  Theorem abc_run_mean J k f : has_mean P (fun w => abc_estimate rthr (recorded w k J) f) (start_law (fun c => G (T J) c * f c)).
  Proof. pose proof (abc_run_value J k f) as H. pose proof (start_law_Qs J 0 f) as E. cbv beta in H, E |- *. cbn [plus] in E. rewrite E in H. exact H. Qed.

  (** * The recorded chain *)
  Definition nn (x : xr) : Prop := match x with Fin r => 0 <= r | NInf => False | _ => True end.
  Hypothesis Hnn : forall w t s k c, nn (snd (inner w t s k c)).

  Lemma nn_add x y : nn x -> nn y -> nn (xadd x y).
  Proof. destruct x, y; cbn; try tauto; lra. Qed.
  Lemma nn_bool x b : nn x -> nn (xmul x (xbool b)).
  Proof.
    destruct b, x as [r| | |]; cbn; try tauto; intros H.
    - lra.
    - destruct (Rlt_dec 0 1); [exact I|lra].
    - lra.
    - destruct (Rlt_dec 0 0); [lra|]. exact I.
  Qed.
  Lemma nn_sum r : (forall x, In x r -> nn x) -> nn (xsum r).
  Proof.
    induction r as [|x r IH]; intros H; [cbn; lra|]. unfold xsum in *. cbn [fold_right]. apply nn_add.
    - apply H. left. reflexivity.
    - apply IH. intros y Hy. apply H. right. exact Hy.
  Qed.
  Lemma nn_div x m : nn x -> nn (xdiv x (INR m)).
  Proof.
    pose proof (pos_INR m) as Hm. destruct x as [r| | |]; cbn; try tauto; intros H.
    - destruct (Req_EM_T _ _) as [_|N].
      + destruct (Rlt_dec 0 r); [exact I|]. destruct (Rlt_dec r 0); [lra|exact I].
      + cbn. apply Rmult_le_pos; [exact H|]. apply Rlt_le, Rinv_0_lt_compat. lra.
    - destruct (Rlt_dec _ _); [lra|exact I].
  Qed.
  Lemma nn_mean (E E' : aensemble (Data := Data)) : (forall p, In p E' -> nn (q_alpha p)) -> nn (a_alpha_mean E E').
  Proof.
    intros H. unfold a_alpha_mean. cbv zeta. apply nn_div, nn_sum. intros x Hx. apply in_map_iff in Hx.
    destruct Hx as ([p b] & <- & Hp). apply nn_bool. apply H, (in_combine_l _ _ _ _ Hp).
  Qed.

  Definition goes_on (c : aensemble (Data := Data) * aextra) : Prop :=
    (forall p, In p (fst c) -> nn (q_alpha p)) /\ nn (ae_alpha_mean (snd c)).

  Lemma begin_goes_on w k : goes_on (begin w k).
  Proof.
    assert (A : forall p, In p (fst (begin w k)) -> nn (q_alpha p)).
    { intros p Hp. unfold begin, abc_smc_begin, a_startup, a_adapt in Hp. cbn [fst] in Hp.
      apply in_map_iff in Hp. destruct Hp as (q & <- & Hq). unfold a_prestart in Hq. cbv zeta in Hq.
      apply in_map_iff in Hq. destruct Hq as (iv & <- & _). cbn. lra. }
    split; [exact A|]. apply nn_mean. exact A.
  Qed.
  Lemma up_goes_on w j E e : fine j (E, e) -> goes_on (E, e) -> goes_on (up w E e).
  Proof.
    intros F [A _]. cbn [fst] in A.
    assert (Rs : forall p, In p (a_resampled (catw w) rthr dflt E e) -> nn (q_alpha p)).
    { intros p Hp. rewrite (resampled_eq w j E e F) in Hp. destruct (resamples rthr E) eqn:C; [|apply A, Hp].
      unfold picked in Hp. apply in_map_iff in Hp. destruct Hp as (i & <- & Hi). cbn [q_alpha].
      apply A, nth_In. pose proof F as (Ln & _). cbn [fst] in Ln.
      destruct (Hcat (w (KSplit (ae_key e) (n + 2) n)) (ae_key e) (map q_lw E) n ltac:(rewrite map_length; exact Ln)) as (_ & Lt & _).
      rewrite Forall_forall in Lt. rewrite Ln. apply Lt. exact Hi. }
    assert (Mv : forall p, In p (a_moved (catw w) (inner w) rthr dflt E e) -> nn (q_alpha p)).
    { intros p Hp. unfold a_moved in Hp. cbv zeta in Hp. apply in_map_iff in Hp. destruct Hp as ([i q] & <- & Hq).
      cbn [fst snd]. unfold a_forward. destruct (xltb _ _); [|apply Rs, (in_combine_r _ _ _ _ Hq)].
      pose proof (Hnn w (ae_thr e) (ae_step e) (KSplit (ae_key e) (length E + 2) i) (q_core q)) as N.
      destruct (inner _ _ _ _ _) as [c al]. exact N. }
    split.
    - intros p Hp. unfold up, a_update, a_adapt in Hp. cbv zeta in Hp. cbn [fst] in Hp. apply in_map_iff in Hp.
      destruct Hp as (q & <- & Hq). cbn [q_alpha]. apply Mv, Hq.
    - unfold up, a_update, a_adapt. cbv zeta. cbn [snd ae_alpha_mean]. apply nn_mean, Mv.
  Qed.

  Lemma rest_iterate w m : forall c, rest w m c = map (fun i => fst (iterate (up w) i c)) (seq 1 m).
  Proof.
    induction m as [|m IH]; intros [E e]; [reflexivity|]. cbn [rest seq map]. cbv zeta. cbn [fst snd]. f_equal.
    rewrite IH, <- (seq_shift m 1), map_map. apply map_ext. intros i. rewrite iterate_succ_l. reflexivity.
  Qed.
  Lemma iterate_fine w k m : fine m (iterate (up w) m (begin w k)) /\ goes_on (iterate (up w) m (begin w k)).
  Proof.
    induction m as [|m [IH1 IH2]].
    - split; [apply begin_fine|apply begin_goes_on].
    - cbn [iterate]. destruct (iterate (up w) m (begin w k)) as [E e]. split; [apply (up_fine w m E e IH1)|apply (up_goes_on w m E e IH1 IH2)].
  Qed.

  Lemma sampled_recorded ta w k : ta < 0 ->
    abc_smc_sampled (fun k => psamp (w k)) (fun v k => pr v (w k)) (fun v k => lik v (w k)) dist (catw w) (inner w) l rthr dflt ta n k st
    = recorded w k (length l).
  Proof.
    intros Hta.
    destruct (run_loop_correct (fun (_ : aensemble (Data := Data)) e => xleb (ae_alpha_mean e) (Fin ta) || (length l <=? ae_iter e)%nat) (up w) (begin w k) (length l))
      as (m & (Hm & _ & Hs) & Hr).
    etransitivity; [exact Hr|]. clear Hr. assert (E : m = length l).
    { destruct Hs as [->|Hs]; [reflexivity|]. apply negb_false_iff, orb_true_iff in Hs.
      destruct (iterate_fine w k m) as [(_ & _ & It & _) [_ Al]]. destruct (iterate (up w) m (begin w k)) as [E e]. cbn [snd] in *.
      destruct Hs as [Hs|Hs].
      - destruct (ae_alpha_mean e) as [r| | |]; cbn in Hs, Al; try discriminate; try contradiction. apply Rleb_true in Hs. lra.
      - apply Nat.leb_le in Hs. rewrite It in Hs. lia. }
    rewrite E. unfold recorded. rewrite rest_iterate. reflexivity.
  Qed.
  Lemma recorded_prefix w k m : forall J, (J <= m)%nat -> firstn (S J) (recorded w k m) = recorded w k J.
  Proof.
    intros J HJ. unfold recorded. rewrite !rest_iterate. cbn [firstn]. f_equal. rewrite firstn_map. f_equal.
    replace m with (J + (m - J))%nat by lia. rewrite seq_app, firstn_app, seq_length, Nat.sub_diag, firstn_all2 by (rewrite seq_length; lia).
    cbn [firstn]. apply app_nil_r.
  Qed.
End AL.
