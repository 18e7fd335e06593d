(** Proofs that the normalising-constant estimate of SMC is unbiased. *)
From Coq Require Import Reals List Bool Arith Lia Lra.
From Verif Require Import XR Keys LoopModel LoopSpec LoopProofs McmcModel McmcSpec McmcProofs
  WeightsModel WeightsSpec WeightsProofs BisectModel BisectProofs BisectProps SmcModel SmcSpec SmcProofs
  SmcRun SmcNorm SmcProps UnbSpec.
Import ListNotations.
Open Scope R_scope.

(** * Sums and expectations *)
Lemma Rsum_ext {A} (f g : A -> R) l : (forall x, In x l -> f x = g x) -> Rsum (map f l) = Rsum (map g l).
Proof. intros H. f_equal. apply map_ext_in. exact H. Qed.
Lemma Rsum_plus {A} (f g : A -> R) l : Rsum (map (fun x => f x + g x) l) = Rsum (map f l) + Rsum (map g l).
Proof. induction l as [|x l IH]; cbn; [lra|]. rewrite IH. lra. Qed.
Lemma Rsum_scal {A} c (f : A -> R) l : Rsum (map (fun x => c * f x) l) = c * Rsum (map f l).
Proof. induction l as [|x l IH]; cbn; [lra|]. rewrite IH. lra. Qed.
Lemma Rsum_swap {A B} (f : A -> B -> R) l m :
  Rsum (map (fun x => Rsum (map (f x) m)) l) = Rsum (map (fun y => Rsum (map (fun x => f x y) l)) m).
Proof.
  induction l as [|x l IH]; cbn.
  - induction m as [|y m IH]; cbn; [reflexivity|]. rewrite <- IH. lra.
  - rewrite IH, <- Rsum_plus. reflexivity.
Qed.
Lemma Rsum_pos {A} (f : A -> R) l : l <> [] -> (forall x, In x l -> 0 < f x) -> 0 < Rsum (map f l).
Proof.
  intros N P. assert (Z : forall m, incl m l -> 0 <= Rsum (map f m)).
  { induction m as [|y m IH]; intros I; cbn; [lra|]. pose proof (P y (I y (or_introl eq_refl))).
    assert (0 <= Rsum (map f m)) by (apply IH; intros z Hz; apply I; right; exact Hz). lra. }
  destruct l as [|x l]; [congruence|]. cbn. pose proof (P x (or_introl eq_refl)).
  pose proof (Z l (fun z Hz => or_intror Hz)). lra.
Qed.

Lemma map_repeat {A B} (f : A -> B) a n : map f (repeat a n) = repeat (f a) n.
Proof. induction n; cbn; congruence. Qed.

Definition prob {A} (d : law A) : Prop := Rsum (map snd d) = 1.

Lemma mean_const {A} (d : law A) c : prob d -> mean d (fun _ => c) = c.
Proof.
  intros P. unfold mean. rewrite (Rsum_ext _ (fun ap => c * snd ap)) by (intros; lra).
  rewrite Rsum_scal. change (Rsum (map (fun x : A * R => snd x) d)) with (Rsum (map snd d)).
  unfold prob in P. rewrite P. lra.
Qed.
Lemma mean_affine {A} (d : law A) a b f : prob d -> mean d (fun x => a + b * f x) = a + b * mean d f.
Proof.
  intros P. unfold mean. rewrite (Rsum_ext _ (fun ap => snd ap * a + b * (snd ap * f (fst ap)))) by (intros; lra).
  rewrite Rsum_plus, Rsum_scal. rewrite (Rsum_ext _ (fun ap => a * snd ap)) by (intros; lra).
  rewrite Rsum_scal. unfold prob in P. change (fun x : A * R => snd x) with (@snd A R). rewrite P. lra.
Qed.
Lemma mean_plus {A} (d : law A) f g : mean d (fun x => f x + g x) = mean d f + mean d g.
Proof.
  unfold mean. rewrite (Rsum_ext _ (fun ap => snd ap * f (fst ap) + snd ap * g (fst ap))) by (intros; lra).
  apply Rsum_plus.
Qed.
Lemma mean_ext {A} (d : law A) f g : (forall x, In x (map fst d) -> f x = g x) -> mean d f = mean d g.
Proof. intros H. apply Rsum_ext. intros ap Hap. rewrite H; [reflexivity|]. apply in_map, Hap. Qed.

Lemma expect_ext {A} (ds : list (law A)) f g :
  (forall x, List.Forall2 (fun a d => In a (map fst d)) x ds -> f x = g x) -> expect ds f = expect ds g.
Proof.
  revert f g. induction ds as [|d ds IH]; intros f g H; cbn.
  - apply H. constructor.
  - apply mean_ext. intros a Ha. apply IH. intros x Hx. apply H. constructor; assumption.
Qed.
Lemma expect_const {A} (ds : list (law A)) c : List.Forall prob ds -> expect ds (fun _ => c) = c.
Proof.
  induction 1 as [|d ds P F IH]; cbn; [reflexivity|]. rewrite IH. apply mean_const. exact P.
Qed.
Lemma expect_affine {A} (ds : list (law A)) a b f : List.Forall prob ds ->
  expect ds (fun x => a + b * f x) = a + b * expect ds f.
Proof.
  intros F. revert f. induction F as [|d ds P F IH]; intros f; cbn; [reflexivity|].
  rewrite <- mean_affine by exact P. apply mean_ext. intros x _. apply (IH (fun l => f (x :: l))).
Qed.

(** a weighted sum of functions of the separate draws *)
Lemma expect_dot {A} (ds : list (law A)) (ws : list R) (f : A -> R) :
  List.Forall prob ds ->
  expect ds (fun x => Rsum (map (fun wx => fst wx * snd wx) (combine ws (map f x))))
  = Rsum (map (fun wx => fst wx * snd wx) (combine ws (map (fun d => mean d f) ds))).
Proof.
  intros F. revert ws. induction F as [|d ds P F IH]; intros ws; cbn; [reflexivity|].
  destruct ws as [|w ws]; cbn.
  - rewrite (mean_ext _ _ (fun _ => 0)); [apply mean_const; exact P|]. intros x _. apply expect_const. exact F.
  - rewrite <- (IH ws). rewrite (mean_ext _ _ (fun a => expect ds (fun x => Rsum (map (fun wx => fst wx * snd wx) (combine ws (map f x)))) + w * f a)).
    + rewrite mean_affine by exact P. lra.
    + intros a _.
      transitivity (w * f a + 1 * expect ds (fun x => Rsum (map (fun wx => fst wx * snd wx) (combine ws (map f x))))); [|lra].
      rewrite <- expect_affine by exact F. apply expect_ext. intros x _. lra.
Qed.

(** * One update with given draws *)
Definition lwf_list (lw : list xr) : Prop := forall x, In x lw -> finite x.

Section U.
  Variable fp fl : vec -> R.
  Variable supp : list vec.
  Variable K : R -> vec -> vec -> R.
  Variable gprior glik : vec -> key -> vec.
  Variable l : list R.
  Variable thr : R.
  Hypothesis supp_ne : supp <> [].
  Hypothesis rows : rows_ok supp K.
  Notation prior := (prior fp).
  Notation lik := (lik fl).
  Notation T := (fun j => nth j l (last l 0)).
  Notation next := (scheduled l).
  Hypothesis Tpos : forall j, 0 < T j.

  Lemma moves_ok ys : inner_ok prior lik (moves fp fl ys).
  Proof.
    intros t step k v Ht. unfold moves. cbv zeta.
    split; [intros k'; reflexivity|]. left. cbn. eexists. reflexivity.
  Qed.

  (** a categorical draw that returns [idx] whenever it fits *)
  Definition finiteb (x : xr) : bool := match x with Fin _ => true | _ => false end.
  Definition cat_of (idx : list nat) (k : key) (lw : list xr) (n : nat) : list nat :=
    if (length idx =? n)%nat && forallb (fun i => (i <? n)%nat && finiteb (nth i lw NInf)) idx
    then idx else cat_first k lw n.

  Lemma cat_of_ok idx : categorical_ok (cat_of idx).
  Proof.
    intros k lw n L. unfold cat_of.
    destruct ((length idx =? n)%nat && forallb _ idx) eqn:B; [|apply cat_first_ok; exact L].
    apply andb_true_iff in B. destruct B as [B1 B2]. apply Nat.eqb_eq in B1. rewrite forallb_forall in B2.
    split; [exact B1|]. split.
    - apply Forall_forall. intros i Hi. specialize (B2 i Hi). apply andb_true_iff in B2. apply Nat.ltb_lt, B2.
    - intros _. apply Forall_forall. intros i Hi. specialize (B2 i Hi). apply andb_true_iff in B2.
      destruct B2 as [_ B2]. destruct (nth i lw NInf) as [r| | |]; try discriminate. exists r. reflexivity.
  Qed.

  Lemma cat_of_fit idx k lw : lwf_list lw -> length idx = length lw ->
    List.Forall (fun i => (i < length lw)%nat) idx -> cat_of idx k lw (length lw) = idx.
  Proof.
    intros F L I. unfold cat_of. rewrite (proj2 (Nat.eqb_eq _ _) L). cbn [andb].
    replace (forallb _ idx) with true; [reflexivity|]. symmetry. apply forallb_forall. intros i Hi.
    rewrite Forall_forall in I. specialize (I i Hi). rewrite (proj2 (Nat.ltb_lt _ _) I). cbn [andb].
    destruct (F (nth i lw NInf) (nth_In _ _ I)) as [r ->]. reflexivity.
  Qed.

  (** an update uses the categorical draw at one argument only *)
  Lemma update_cat inner E e idx : lwf E -> length idx = length E ->
    List.Forall (fun i => (i < length E)%nat) idx ->
    smc_update prior (indices idx) inner next thr E e = smc_update prior (cat_of idx) inner next thr E e
    /\ resampled_ensemble (indices idx) thr E e = resampled_ensemble (cat_of idx) thr E e.
  Proof.
    intros F L I.
    assert (C : forall k, resample (indices idx) E k = resample (cat_of idx) E k).
    { intros k. unfold resample, indices. cbv zeta.
      replace (cat_of idx k (map p_lw E) (length E)) with idx; [reflexivity|]. symmetry.
      transitivity (cat_of idx k (map p_lw E) (length (map p_lw E))); [rewrite map_length; reflexivity|].
      apply cat_of_fit.
      - intros x Hx. apply in_map_iff in Hx. destruct Hx as (p & <- & Hp). apply F, Hp.
      - rewrite map_length. exact L.
      - rewrite map_length. exact I. }
    assert (R : resampled_ensemble (indices idx) thr E e = resampled_ensemble (cat_of idx) thr E e).
    { unfold resampled_ensemble. rewrite C. reflexivity. }
    split; [|exact R]. unfold smc_update, moved_ensemble. rewrite R. reflexivity.
  Qed.

  Definition fine (j : nat) (c : ensemble * sextra) : Prop :=
    fst c <> [] /\ shared (fst c) /\ good prior lik (fst c) /\ lwf (fst c)
    /\ finite (p_lnc (first (fst c))) /\ p_temp (first (fst c)) = T j /\ s_iter (snd c) = j
    /\ forall p, In p (fst c) -> In (p_value p) supp.

  Lemma update_values cat ys E e : categorical_ok cat -> length ys = length E ->
    map p_value (fst (smc_update prior cat (moves fp fl ys) next thr E e)) = ys.
  Proof.
    intros Ok L. apply nth_ext with (d := p_value dpart) (d' := fun _ => 0).
    - rewrite map_length, update_length by exact Ok. auto.
    - intros i Hi. rewrite map_length, update_length in Hi by exact Ok. rewrite map_nth.
      unfold smc_update. cbn [fst].
      rewrite nth_adapt; [|rewrite moved_length, resampled_length by auto; reflexivity | rewrite moved_length by auto; exact Hi].
      cbn [p_value]. rewrite nth_moved by auto. unfold forward_proposal, moves. cbn [p_value].
      apply nth_indep. lia.
  Qed.

  Lemma weights_sum (a b : list R) :
    weights (map (fun ab => xadd (fst ab) (snd ab)) (combine (map Fin a) (map Fin b)))
    = map (fun wx => fst wx * snd wx) (combine (weights (map Fin a)) (map exp b)).
  Proof.
    revert b. induction a as [|x a IH]; intros [|y b]; cbn; try reflexivity.
    rewrite exp_plus. f_equal. apply IH.
  Qed.

  Lemma dot_assoc (w g f : list R) : length w = length g -> length g = length f ->
    Rsum (map (fun wx => fst wx * snd wx) (combine (map (fun wx => fst wx * snd wx) (combine w g)) f))
    = Rsum (map (fun wx => fst wx * snd wx) (combine w (map (fun wx => fst wx * snd wx) (combine g f)))).
  Proof.
    revert g f. induction w as [|x w IH]; intros [|y g] [|z f]; cbn; intros L M; try discriminate; [reflexivity|].
    rewrite IH by lia. lra.
  Qed.

  Lemma used_pos E : E <> [] -> lwf E ->
    length (weights_used thr E) = length E /\ (forall w, In w (weights_used thr E) -> 0 < w) /\ 0 < Rsum (weights_used thr E).
  Proof.
    intros N F.
    assert (L : length (weights_used thr E) = length E).
    { unfold weights_used. destruct (p_ess _); try destruct (Rle_dec _ _);
        unfold weights; rewrite ?map_length, ?repeat_length; reflexivity. }
    assert (P : forall w, In w (weights_used thr E) -> 0 < w).
    { assert (A : forall w, In w (weights (map p_lw E)) -> 0 < w).
      { intros w Hw. unfold weights in Hw. rewrite map_map in Hw. apply in_map_iff in Hw. destruct Hw as (p & <- & Hp).
        destruct (F p Hp) as [r Er]. rewrite Er. apply exp_pos. }
      assert (B : forall w n, In w (repeat 1 n) -> 0 < w) by (intros w n Hw; apply repeat_spec in Hw; lra).
      intros w Hw. unfold weights_used in Hw. destruct (p_ess (first E)); eauto.
      destruct (Rle_dec _ _); eauto. }
    split; [exact L|]. split; [exact P|]. rewrite <- (map_id (weights_used thr E)). apply Rsum_pos; [|exact P].
    intros C. rewrite C in L. destruct E; [congruence|discriminate].
  Qed.

  Lemma dot_pos w g : w <> [] -> length w = length g -> (forall x, In x w -> 0 < x) -> (forall x, In x g -> 0 < x) ->
    0 < Rsum (map (fun wx => fst wx * snd wx) (combine w g)).
  Proof.
    intros N L P Q. apply Rsum_pos.
    - destruct w, g; try discriminate; congruence.
    - intros [a b] H. cbn. apply Rmult_lt_0_compat; [apply P|apply Q].
      + apply in_combine_l in H. exact H.
      + apply in_combine_r in H. exact H.
  Qed.

  Lemma finite_list (lw : list xr) : lwf_list lw -> exists a, lw = map Fin a.
  Proof.
    induction lw as [|x lw IH]; intros F; [exists []; reflexivity|].
    destruct (F x (or_introl eq_refl)) as [r ->]. destruct IH as [a ->]; [intros y Hy; apply F; right; exact Hy|].
    exists (r :: a). reflexivity.
  Qed.

  Definition g (j : nat) (y : vec) : R := exp (- (T (S j) - T j) * fl y).

  Lemma step_given j E e idx ys : fine j (E, e) ->
    length idx = length E -> List.Forall (fun i => (i < length E)%nat) idx ->
    length ys = length E -> (forall y, In y ys -> In y supp) ->
    let c' := smc_update prior (indices idx) (moves fp fl ys) next thr E e in
    fine (S j) c'
    /\ forall phi, estimate phi c' = norm_constant (E, e) * weighted_mean (weights_used thr E) (map (fun y => g j y * phi y) ys).
  Proof.
    intros (Ne & Sh & G & Lw & Lnc & Te & It & Su) Li Fi Ly Sy. cbn [fst snd] in *.
    destruct (update_cat (moves fp fl ys) E e idx Lw Li Fi) as [-> _].
    set (cat := cat_of idx). assert (Ok : categorical_ok cat) by apply cat_of_ok.
    set (c' := smc_update prior cat (moves fp fl ys) next thr E e). cbv zeta.
    assert (V : map p_value (fst c') = ys) by (apply update_values; assumption).
    assert (Ne' : fst c' <> []) by (apply update_nonempty; assumption).
    assert (Sh' : shared (fst c')) by (apply shared_update; assumption).
    assert (Te' : p_temp (first (fst c')) = T (S j)).
    { unfold c'. rewrite update_first_temp by assumption. rewrite It. reflexivity. }
    assert (G' : good prior lik (fst c')).
    { apply update_good; auto; try apply real_ok; [apply moves_ok|]. rewrite Te. apply Tpos. }
    assert (Lw' : lwf (fst c')) by (apply (lwf_update fp fl); assumption).
    assert (Inc : increments E (fst c') = map Fin (map (fun y => - (T (S j) - T j) * fl y) ys)).
    { rewrite (incs_real fp fl) by exact G'. rewrite Te, Te', <- V, !map_map. reflexivity. }
    assert (IncOk : List.Forall (fun x => x = NInf \/ finite x) (increments E (fst c'))).
    { rewrite Inc. apply Forall_forall. intros x Hx. apply in_map_iff in Hx. destruct Hx as (r & <- & _). right. exists r. reflexivity. }
    pose proof (C22_increment prior cat (moves fp fl ys) next thr E e 0 Ok Ne Sh) as I.
    cbv zeta in I. fold c' in I. rewrite <- first_nth in I.
    assert (Npos : (0 < length E)%nat) by (destruct E; [congruence|cbn; lia]).
    specialize (I Npos (lwf_ok E Ne Lw) IncOk (proj2 (lwf_ok _ Ne' Lw'))).
    destruct Lnc as [z Ez]. rewrite Ez in I. cbn [xadd] in I.
    destruct (used_pos E Ne Lw) as (UL & UP & US).
    assert (WI : weights (increments E (fst c')) = map (g j) ys).
    { rewrite Inc. unfold weights. rewrite !map_map. reflexivity. }
    rewrite WI in I.
    assert (WE : weights (map p_lw (fst c')) = map (fun wx => fst wx * snd wx) (combine (weights_used thr E) (map (g j) ys))).
    { unfold c'. rewrite new_lw_increments by assumption. fold c'. rewrite Inc.
      rewrite <- (weights_used_eq cat thr Ok E e).
      destruct (finite_list (map p_lw (resampled_ensemble cat thr E e))) as [a Ea].
      { intros x Hx. rewrite resampled_lw in Hx by exact Ok. destruct (resample_criterion thr E).
        - apply repeat_spec in Hx. subst x. exists 0. reflexivity.
        - apply in_map_iff in Hx. destruct Hx as (p & <- & Hp). apply Lw, Hp. }
      rewrite Ea, weights_sum, map_map. reflexivity. }
    assert (Pg : 0 < Rsum (map (fun wx => fst wx * snd wx) (combine (weights_used thr E) (map (g j) ys)))).
    { apply dot_pos; auto.
      - intros C. rewrite C in UL. cbn in UL. lia.
      - rewrite map_length. lia.
      - intros x Hx. apply in_map_iff in Hx. destruct Hx as (y & <- & _). apply exp_pos. }
    split.
    - repeat (split; [assumption|]). split; [rewrite I; eexists; reflexivity|]. split; [exact Te'|].
      split; [unfold c'; rewrite update_iter, It; reflexivity|].
      intros p Hp. apply Sy. rewrite <- V. apply in_map, Hp.
    - intros phi. unfold estimate, norm_constant. cbn [fst]. rewrite I, Ez. cbn [rval].
      rewrite exp_plus. unfold weighted_mean at 1. rewrite exp_ln by (apply Rdiv_lt_0_compat; assumption).
      rewrite WE. unfold weighted_mean.
      rewrite <- (map_map p_value phi), V.
      rewrite dot_assoc by (rewrite ?map_length; lia).
      assert (M : map (fun wx => fst wx * snd wx) (combine (map (g j) ys) (map phi ys)) = map (fun y => g j y * phi y) ys).
      { clear. induction ys as [|y ys IH]; cbn; [reflexivity|]. rewrite IH. reflexivity. }
      rewrite M. field. lra.
  Qed.

  (** * The expectation of one update *)
  Lemma sum_nth (lw : list xr) : Rsum (map (fun i => weight (nth i lw NInf)) (seq 0 (length lw))) = Rsum (weights lw).
  Proof.
    unfold weights. f_equal. apply nth_ext with (d := weight (nth 0 lw NInf)) (d' := weight NInf).
    - rewrite !map_length, seq_length. reflexivity.
    - intros i Hi. rewrite map_length, seq_length in Hi.
      rewrite (map_nth (fun i => weight (nth i lw NInf))), map_nth, seq_nth by exact Hi. reflexivity.
  Qed.

  Lemma cat_prob E : E <> [] -> lwf E -> prob (cat_law E) /\ 0 < Rsum (weights (map p_lw E)).
  Proof.
    intros N F.
    assert (P : 0 < Rsum (weights (map p_lw E))).
    { unfold weights. rewrite map_map. apply Rsum_pos; [exact N|]. intros p Hp. destruct (F p Hp) as [r ->]. apply exp_pos. }
    split; [|exact P]. unfold prob, cat_law. rewrite map_map. cbn [snd].
    rewrite (Rsum_ext _ (fun i => / Rsum (weights (map p_lw E)) * weight (nth i (map p_lw E) NInf))) by (intros; unfold Rdiv; lra).
    rewrite Rsum_scal. rewrite <- (map_length p_lw E), sum_nth. field. lra.
  Qed.

  Lemma mean_cat E f : E <> [] -> lwf E ->
    mean (cat_law E) (fun i => f (nth i E dpart)) = weighted_mean (weights (map p_lw E)) (map f E).
  Proof.
    intros N F. destruct (cat_prob E N F) as [_ P]. unfold mean, cat_law, weighted_mean. rewrite map_map. cbn [fst snd].
    rewrite (Rsum_ext _ (fun i => / Rsum (weights (map p_lw E)) * (weight (nth i (map p_lw E) NInf) * f (nth i E dpart)))) by (intros; unfold Rdiv; lra).
    rewrite Rsum_scal. unfold Rdiv. rewrite Rmult_comm. f_equal. f_equal.
    set (h := fun wx : R * R => fst wx * snd wx).
    apply nth_ext with (d := weight (nth 0 (map p_lw E) NInf) * f (nth 0 E dpart)) (d' := h (weight (p_lw dpart), f dpart)).
    - unfold weights. rewrite !map_length, seq_length, combine_length, !map_length. lia.
    - intros i Hi. rewrite map_length, seq_length in Hi.
      rewrite (map_nth (fun i => weight (nth i (map p_lw E) NInf) * f (nth i E dpart))), (map_nth h), seq_nth by exact Hi. unfold h.
      unfold weights. rewrite map_map. rewrite combine_nth by (rewrite !map_length; reflexivity).
      rewrite (map_nth (fun p => weight (p_lw p))), map_nth. cbn [fst snd plus].
      rewrite (nth_indep _ NInf (p_lw dpart)) by (rewrite map_length; exact Hi). rewrite map_nth. reflexivity.
  Qed.

  Lemma kernel_prob t x : 0 < t -> In x supp -> prob (kernel_law supp K t x).
  Proof. intros Ht Hx. unfold prob, kernel_law. rewrite map_map. apply rows; assumption. Qed.

  Lemma support_repeat {A} (d : law A) n x :
    List.Forall2 (fun a d => In a (map fst d)) x (repeat d n) -> length x = n /\ List.Forall (fun a => In a (map fst d)) x.
  Proof.
    revert x. induction n as [|n IH]; intros x H; inversion H; subst; [split; [reflexivity|constructor]|].
    destruct (IH _ H4). split; [cbn; lia|constructor; assumption].
  Qed.

  Lemma support_map {A B} (f : B -> law A) (bs : list B) (P : A -> Prop) x :
    (forall b a, In b bs -> In a (map fst (f b)) -> P a) ->
    List.Forall2 (fun a d => In a (map fst d)) x (map f bs) -> length x = length bs /\ forall a, In a x -> P a.
  Proof.
    revert x. induction bs as [|b bs IH]; intros x Hp H; inversion H; subst; [split; [reflexivity|intros a []]|].
    destruct (IH l0) as [I1 I2]; [intros; eapply Hp; [right|]; eassumption | assumption |].
    split; [cbn; lia|]. intros a [<-|Ha]; [eapply Hp; [left; reflexivity|assumption]|apply I2, Ha].
  Qed.

  Definition Q (j : nat) (phi : vec -> R) (x : vec) : R := mean (kernel_law supp K (T j) x) (fun y => g j y * phi y).

  Lemma weighted_repeat n x : weighted_mean (repeat 1 n) x
    = Rsum (map (fun wx => fst wx * snd wx) (combine (repeat 1 n) x)) / INR n.
  Proof.
    unfold weighted_mean. f_equal. induction n as [|n IH]; [reflexivity|]. cbn [repeat Rsum]. rewrite IH, S_INR. lra.
  Qed.

  Lemma dot_scaled (c : R) n : Rsum (map (fun wx => fst wx * snd wx) (combine (repeat 1 n) (repeat c n))) = INR n * c.
  Proof. induction n as [|n IH]; [cbn; lra|]. cbn [repeat combine map Rsum fst snd]. rewrite IH, S_INR. lra. Qed.

  (** the moves of one update, indices given *)
  Lemma moves_mean j E e idx G : fine j (E, e) -> length idx = length E -> List.Forall (fun i => (i < length E)%nat) idx ->
    forall phi, (forall c', fine (S j) c' -> G c' = estimate phi c') ->
    expect (map (fun p => kernel_law supp K (p_temp (first E)) (p_value p)) (resampled_ensemble (indices idx) thr E e))
      (fun ys => G (smc_update prior (indices idx) (moves fp fl ys) next thr E e))
    = norm_constant (E, e) * weighted_mean (weights_used thr E)
        (map (fun p => Q j phi (p_value p)) (resampled_ensemble (indices idx) thr E e)).
  Proof.
    intros Fi Li Ii phi HG. pose proof Fi as (Ne & Sh & Go & Lw & Lnc & Te & It & Su). cbn [fst snd] in *.
    set (Rs := resampled_ensemble (indices idx) thr E e).
    assert (RL : length Rs = length E /\ forall p, In p Rs -> In (p_value p) supp).
    { unfold Rs. destruct (update_cat (moves fp fl []) E e idx Lw Li Ii) as [_ ->]. split.
      - apply resampled_length, cat_of_ok.
      - intros p Hp. destruct (resampled_in _ _ (cat_of_ok idx) E e p Hp) as (q & Hq & -> & _). apply Su, Hq. }
    destruct RL as [RL RS]. rewrite Te.
    destruct (used_pos E Ne Lw) as (UL & UP & US).
    rewrite (expect_ext _ _ (fun ys => 0 + norm_constant (E, e) / Rsum (weights_used thr E)
        * Rsum (map (fun wx => fst wx * snd wx) (combine (weights_used thr E) (map (fun y => g j y * phi y) ys))))).
    2: { intros ys Hys. assert (L12 : length ys = length Rs /\ forall y, In y ys -> In y supp); [|destruct L12 as [L1 L2]].
         - eapply (support_map _ _ (fun y => In y supp) ys); [|exact Hys].
           intros b a _ Ha. unfold kernel_law in Ha. rewrite map_map in Ha. cbn in Ha. rewrite map_id in Ha. exact Ha.
         - destruct (step_given j E e idx ys Fi Li Ii ltac:(congruence) L2) as [S1 S2].
           rewrite HG by exact S1. rewrite S2. unfold weighted_mean. field. lra. }
    assert (Pr : List.Forall prob (map (fun p => kernel_law supp K (T j) (p_value p)) Rs)).
    { apply Forall_forall. intros d Hd. apply in_map_iff in Hd. destruct Hd as (p & <- & Hp). apply kernel_prob; auto. }
    rewrite expect_affine by exact Pr. rewrite expect_dot by exact Pr.
    rewrite map_map. unfold weighted_mean. unfold Q. field. lra.
  Qed.

  Lemma step_mean_estimate j c G phi : fine j c -> (forall c', fine (S j) c' -> G c' = estimate phi c') ->
    step_mean fp fl supp K l thr c G = estimate (Q j phi) c.
  Proof.
    destruct c as [E e]. intros Fi HG. pose proof Fi as (Ne & Sh & Go & Lw & Lnc & Te & It & Su). cbn [fst snd] in *.
    unfold step_mean. destruct (cat_prob E Ne Lw) as [Pc Pw].
    assert (Pr : List.Forall prob (repeat (cat_law E) (length E))).
    { apply Forall_forall. intros d Hd. apply repeat_spec in Hd. subst d. exact Pc. }
    assert (Np : 0 < INR (length E)) by (apply lt_0_INR; destruct E; [congruence|cbn; lia]).
    rewrite (expect_ext _ _ (fun idx => norm_constant (E, e) * weighted_mean (weights_used thr E)
        (map (fun p => Q j phi (p_value p)) (resampled_ensemble (indices idx) thr E e)))).
    2: { intros idx Hidx. apply support_repeat in Hidx. destruct Hidx as [L1 L2].
         apply moves_mean; auto. eapply Forall_impl; [|exact L2]. cbn. intros i Hi.
         unfold cat_law in Hi. rewrite map_map in Hi. cbn in Hi. rewrite map_id in Hi. apply in_seq in Hi. lia. }
    unfold estimate. cbn [fst].
    destruct (resample_criterion thr E) eqn:C.
    - assert (WU : weights_used thr E = repeat 1 (length E)).
      { unfold resample_criterion in C. unfold weights_used. destruct (p_ess (first E)); cbn in C; try discriminate; [|reflexivity].
        unfold Rleb in C. destruct (Rle_dec _ _); [reflexivity|discriminate]. }
      rewrite WU.
      rewrite (expect_ext _ _ (fun idx => 0 + norm_constant (E, e) / INR (length E)
        * Rsum (map (fun wx => fst wx * snd wx) (combine (repeat 1 (length E)) (map (fun i => Q j phi (p_value (nth i E dpart))) idx))))).
      2: { intros idx _. unfold resampled_ensemble. rewrite C. unfold resample, indices. cbv zeta. rewrite map_map. cbn [set_weight p_value].
           rewrite weighted_repeat. unfold Rdiv. ring. }
      rewrite expect_affine by exact Pr. rewrite expect_dot by exact Pr.
      rewrite map_repeat. rewrite (mean_cat E (fun p => Q j phi (p_value p))) by assumption.
      rewrite dot_scaled. field. lra.
    - rewrite (expect_ext _ _ (fun _ => norm_constant (E, e) * weighted_mean (weights (map p_lw E)) (map (fun p => Q j phi (p_value p)) E))).
      2: { intros idx _. unfold resampled_ensemble. rewrite C. f_equal. f_equal.
           unfold resample_criterion in C. unfold weights_used. destruct (p_ess (first E)); cbn in C; try discriminate; try reflexivity.
           unfold Rleb in C. destruct (Rle_dec _ _); [discriminate|reflexivity]. }
      apply expect_const. exact Pr.
  Qed.

  (** * Whole runs *)
  Fixpoint Qs (j J : nat) (phi : vec -> R) : vec -> R :=
    match J with O => phi | S J' => Q j (Qs (S j) J' phi) end.

  Lemma run_mean_estimate J : forall j c phi G, fine j c ->
    (forall c', fine (j + J)%nat c' -> G c' = estimate phi c') ->
    run_mean fp fl supp K l thr J c G = estimate (Qs j J phi) c.
  Proof.
    induction J as [|J IH]; intros j c phi G Fi HG; cbn [run_mean Qs].
    - apply HG. rewrite Nat.add_0_r. exact Fi.
    - apply step_mean_estimate; [exact Fi|]. intros c' Fc. apply IH; [exact Fc|].
      intros c2 F2. apply HG. replace (j + S J)%nat with (S j + J)%nat by lia. exact F2.
  Qed.

  Hypothesis inv : invariant_ok fp fl supp K.
  Notation gsum := (gsum fp fl supp).

  Lemma gsum_Q j phi : gsum (T j) (Q j phi) = gsum (T (S j)) phi.
  Proof.
    unfold UnbSpec.gsum, Q, mean, kernel_law.
    rewrite (Rsum_ext _ (fun x => Rsum (map (fun y => gam fp fl (T j) x * K (T j) x y * (g j y * phi y)) supp))).
    2: { intros x _. rewrite map_map. cbn [fst snd]. rewrite <- Rsum_scal. apply Rsum_ext. intros; ring. }
    rewrite Rsum_swap. apply Rsum_ext. intros y Hy.
    rewrite (Rsum_ext _ (fun x => (g j y * phi y) * (gam fp fl (T j) x * K (T j) x y))) by (intros; ring).
    rewrite Rsum_scal, inv by auto. unfold gam, g.
    replace (- fp y - T (S j) * fl y) with ((- (T (S j) - T j) * fl y) + (- fp y - T j * fl y)) by ring.
    rewrite exp_plus. ring.
  Qed.

  Lemma gsum_Qs J : forall j phi, gsum (T j) (Qs j J phi) = gsum (T (j + J)%nat) phi.
  Proof.
    induction J as [|J IH]; intros j phi; cbn [Qs]; [rewrite Nat.add_0_r; reflexivity|].
    rewrite gsum_Q, IH. replace (S j + J)%nat with (j + S J)%nat by lia. reflexivity.
  Qed.

  Lemma startup_fine vs k st : vs <> [] -> (forall v, In v vs -> In v supp) ->
    let c := smc_startup prior lik gprior glik next vs k st in
    fine 0%nat c /\ forall phi, estimate phi c
      = Rsum (map (fun wx => fst wx * snd wx) (combine (repeat 1 (length vs)) (map (fun v => exp (- T 0%nat * fl v) * phi v) vs))) / INR (length vs).
  Proof.
    intros Ne Sv c.
    assert (Np : (0 < length vs)%nat) by (destruct vs; [congruence|cbn; lia]).
    assert (Npr : 0 < INR (length vs)) by (apply lt_0_INR; exact Np).
    assert (Nc : fst c <> []) by (apply startup_nonempty; exact Ne).
    assert (LL : length (fst c) = length vs) by (unfold c; apply startup_length).
    assert (V : map p_value (fst c) = vs).
    { apply nth_ext with (d := p_value dpart) (d' := fun _ => 0); [rewrite map_length; exact LL|].
      intros i Hi. rewrite map_length, LL in Hi. rewrite map_nth. unfold c. rewrite nth_startup by exact Hi. cbv zeta. cbn [p_value].
      rewrite nth_prestart by exact Hi. reflexivity. }
    assert (LW : map p_lw (fst c) = map Fin (map (fun v => - T 0%nat * fl v) vs)).
    { apply nth_ext with (d := p_lw dpart) (d' := Fin ((fun v => - T 0%nat * fl v) (fun _ => 0))); [rewrite !map_length; exact LL|].
      intros i Hi. rewrite map_length, LL in Hi. rewrite !map_nth, (map_nth (fun v => - T 0%nat * fl v)). unfold c.
      rewrite nth_startup by exact Hi. cbv zeta. cbn [p_lw]. rewrite nth_prestart by exact Hi. reflexivity. }
    assert (LNC : p_lnc (first (fst c)) = Fin (ln (Rsum (map exp (map (fun v => - T 0%nat * fl v) vs)) / INR (length vs)))
                  /\ 0 < Rsum (map exp (map (fun v => - T 0%nat * fl v) vs)) / INR (length vs)).
    { destruct (logmeanexp_real (length vs) (map (fun v => - T 0%nat * fl v) vs)) as [L1 L2]; [destruct vs; [congruence|discriminate]|exact Np|].
      split; [|exact L2]. rewrite <- L1, <- LW. rewrite first_nth. unfold c. rewrite nth_startup by exact Np. cbv zeta. cbn [p_lnc].
      f_equal. unfold smc_startup. cbn [fst]. rewrite map_map. cbn [p_lw].
      set (E0 := smc_prestart _ _ _ _ _ _). clearbody E0. generalize (- next E0 0%nat). clear. intros t.
      induction E0 as [|p E0 IH]; cbn; [reflexivity|]. f_equal. exact IH. }
    destruct LNC as [LN1 LN2].
    assert (TC : p_temp (first (fst c)) = T 0%nat) by (apply (startup_temp _ _ _ _ _ _ _ _ _ (first_in _ Nc))).
    split.
    - split; [exact Nc|]. split; [apply startup_shared|]. split.
      { apply startup_good; try apply real_ok. intros v _. exists (KRoot 0). exists (fp v). reflexivity. }
      split.
      { intros p Hp. apply (in_map p_lw) in Hp. rewrite LW in Hp. apply in_map_iff in Hp. destruct Hp as (r & <- & _). exists r. reflexivity. }
      split; [rewrite LN1; eexists; reflexivity|]. split; [exact TC|]. split; [reflexivity|].
      intros p Hp. apply Sv. rewrite <- V. apply in_map, Hp.
    - intros phi. unfold estimate, norm_constant. rewrite LN1. cbn [rval]. rewrite exp_ln by exact LN2.
      rewrite LW. unfold weights, weighted_mean. rewrite <- (map_map p_value phi), V.
      assert (PS : 0 < Rsum (map exp (map (fun v => - T 0%nat * fl v) vs))).
      { rewrite map_map. apply Rsum_pos; [exact Ne|]. intros. apply exp_pos. }
      rewrite !map_map in *. cbn [weight] in *.
      assert (M : Rsum (map (fun wx => fst wx * snd wx) (combine (repeat 1 (length vs)) (map (fun v => exp (- T 0%nat * fl v) * phi v) vs)))
        = Rsum (map (fun wx => fst wx * snd wx) (combine (map (fun v => exp (- T 0%nat * fl v)) vs) (map phi vs)))).
      { clear. induction vs as [|v vs IH]; cbn; [reflexivity|]. cbn in IH. rewrite IH. lra. }
      rewrite M. field. lra.
  Qed.

  Theorem smc_mean_estimate n J k st phi G : (0 < n)%nat ->
    (forall c, fine J c -> G c = estimate phi c) ->
    smc_mean fp fl supp K gprior glik l thr n J k st G
    = gsum (T J) phi / gsum 0 (fun _ => 1).
  Proof.
    intros Hn HG. unfold smc_mean.
    assert (Z : 0 < gsum 0 (fun _ => 1)).
    { apply Rsum_pos; [exact supp_ne|]. intros x _. unfold gam. pose proof (exp_pos (- fp x - 0 * fl x)). lra. }
    assert (P1 : prob (prior_law fp fl supp)).
    { unfold prob, prior_law. rewrite map_map. cbn [snd].
      rewrite (Rsum_ext _ (fun x => / gsum 0 (fun _ => 1) * (gam fp fl 0 x * 1))) by (intros; unfold Rdiv; ring).
      rewrite Rsum_scal. fold (gsum 0 (fun _ => 1)). field. lra. }
    assert (Pr : List.Forall prob (repeat (prior_law fp fl supp) n)).
    { apply Forall_forall. intros d Hd. apply repeat_spec in Hd. subst d. exact P1. }
    assert (Np : 0 < INR n) by (apply lt_0_INR; exact Hn).
    rewrite (expect_ext _ _ (fun vs => 0 + / INR n *
       Rsum (map (fun wx => fst wx * snd wx) (combine (repeat 1 n) (map (fun v => exp (- T 0%nat * fl v) * Qs 0%nat J phi v) vs))))).
    2: { intros vs Hvs. apply support_repeat in Hvs. destruct Hvs as [L1 L2].
         assert (Ne : vs <> []) by (destruct vs; [cbn in L1; lia|discriminate]).
         destruct (startup_fine vs k st Ne) as [F1 F2].
         - rewrite Forall_forall in L2. intros v Hv. specialize (L2 v Hv). unfold prior_law in L2. rewrite map_map in L2.
           cbn in L2. rewrite map_id in L2. exact L2.
         - rewrite (run_mean_estimate J 0%nat _ phi) by (exact F1 || exact HG). rewrite F2, L1. unfold Rdiv. ring. }
    rewrite expect_affine by exact Pr. rewrite expect_dot by exact Pr. rewrite map_repeat, dot_scaled.
    pose proof (gsum_Qs J 0%nat phi) as GQ. cbn [plus] in GQ. rewrite <- GQ. unfold mean, prior_law. rewrite map_map. cbn [fst snd].
    rewrite (Rsum_ext _ (fun x => / gsum 0 (fun _ => 1) * (gam fp fl (T 0%nat) x * Qs 0%nat J phi x))).
    2: { intros x _. unfold gam. replace (- fp x - T 0%nat * fl x) with ((- fp x - 0 * fl x) + - T 0%nat * fl x) by ring.
         rewrite exp_plus. unfold Rdiv. ring. }
    rewrite Rsum_scal. fold (gsum (T 0%nat) (Qs 0%nat J phi)). cbv beta. field. lra.
  Qed.

  Lemma fine_one j c : fine j c -> norm_constant c = estimate (fun _ => 1) c.
  Proof.
    intros (Ne & _ & _ & Lw & _). destruct (cat_prob (fst c) Ne Lw) as [_ P]. unfold estimate, weighted_mean.
    set (ws := weights (map p_lw (fst c))) in *.
    assert (L : length ws = length (fst c)) by (unfold ws, weights; rewrite !map_length; reflexivity).
    assert (D : Rsum (map (fun wx => fst wx * snd wx) (combine ws (map (fun _ => 1) (fst c)))) = Rsum ws).
    { clear -L. revert L. generalize (fst c). induction ws as [|w ws IH]; intros [|p E] L; cbn; try discriminate; [reflexivity|].
      rewrite IH by (cbn in L; lia). lra. }
    rewrite D. field. lra.
  Qed.
End U.
