(** Lemmas for C128. *)
From Coq Require Import Reals List Arith Bool Lra Lia Sorted Permutation.
From Verif Require Import McmcModel KernelModel BandModel BandSpec.
Import ListNotations.
Open Scope R_scope.

Lemma rinsert_perm x l : Permutation (x :: l) (rinsert x l).
Proof.
  induction l as [|y l IH]; [reflexivity|]. cbn. destruct (Rle_dec x y); [reflexivity|].
  etransitivity; [apply perm_swap|]. apply perm_skip, IH.
Qed.
Lemma rsort_perm l : Permutation l (rsort l).
Proof.
  induction l as [|x l IH]; [constructor|]. cbn. etransitivity; [apply perm_skip, IH|apply rinsert_perm].
Qed.
Lemma rsort_length l : length (rsort l) = length l.
Proof. symmetry. apply Permutation_length, rsort_perm. Qed.
Lemma rinsert_sorted x l : StronglySorted Rle l -> StronglySorted Rle (rinsert x l).
Proof.
  induction l as [|y l IH]; intros H; [repeat constructor|]. inversion H as [|? ? S F]; subst. cbn.
  destruct (Rle_dec x y) as [L|L].
  - constructor; [exact H|]. constructor; [exact L|]. eapply Forall_impl; [|exact F]. intros z. cbn. lra.
  - constructor; [apply IH, S|]. eapply Permutation_Forall; [apply rinsert_perm|]. constructor; [lra|exact F].
Qed.
Lemma rsort_sorted l : StronglySorted Rle (rsort l).
Proof. induction l; [constructor|]. cbn. apply rinsert_sorted, IHl. Qed.

Lemma sorted_app_le a b : StronglySorted Rle (a ++ b) -> forall x y, In x a -> In y b -> x <= y.
Proof.
  induction a as [|z a IH]; intros H x y Hx Hy; [destruct Hx|]. cbn in H. inversion H as [|? ? S F]; subst.
  destruct Hx as [->|Hx]; [|apply IH; auto]. rewrite Forall_forall in F. apply F, in_or_app. right. exact Hy.
Qed.
Lemma nth_firstn_lt (s : list R) i k : (i < k)%nat -> nth i (firstn k s) 0 = nth i s 0.
Proof. revert i k. induction s as [|x s IH]; intros i k H; destruct k, i; cbn; try lia; try reflexivity. apply IH. lia. Qed.
Lemma nth_skipn_add (s : list R) i k : nth i (skipn k s) 0 = nth (k + i) s 0.
Proof. revert s. induction k as [|k IH]; intros s; [reflexivity|]. destruct s; cbn; [destruct i; reflexivity|apply IH]. Qed.
Lemma sorted_nth s i j : StronglySorted Rle s -> (i <= j < length s)%nat -> nth i s 0 <= nth j s 0.
Proof.
  intros H Hij. destruct (Nat.eq_dec i j) as [->|N]; [lra|].
  rewrite <- (firstn_skipn j s) in H. apply (sorted_app_le _ _ H).
  - rewrite <- (nth_firstn_lt s i j) by lia. apply nth_In. rewrite firstn_length. lia.
  - replace j with (j + 0)%nat at 1 by lia. rewrite <- nth_skipn_add. apply nth_In. rewrite skipn_length. lia.
Qed.

Lemma filter_all {A} (P : A -> bool) l : (forall x, In x l -> P x = true) -> filter P l = l.
Proof.
  induction l as [|x l IH]; intros H; [reflexivity|]. cbn. rewrite (H x (or_introl eq_refl)), IH; [reflexivity|].
  intros y Hy. apply H. right. exact Hy.
Qed.
Lemma filter_perm {A} (P : A -> bool) l l' : Permutation l l' -> length (filter P l) = length (filter P l').
Proof.
  induction 1; cbn; auto; try lia.
  - destruct (P x); cbn; lia.
  - destruct (P x), (P y); reflexivity.
Qed.
Definition leb (a b : R) : bool := if Rle_dec a b then true else false.
Lemma leb_true a b : leb a b = true <-> a <= b.
Proof. unfold leb. destruct (Rle_dec a b); split; intros; try reflexivity; try assumption; congruence. Qed.

Lemma count_low s i m : StronglySorted Rle s -> (i < length s)%nat -> nth i s 0 <= m -> (S i <= length (filter (fun x => leb x m) s))%nat.
Proof.
  intros H Hi Hm. rewrite <- (firstn_skipn (S i) s), filter_app, app_length.
  rewrite (filter_all _ (firstn (S i) s)); [rewrite firstn_length; lia|].
  intros x Hx. apply leb_true. apply (In_nth _ _ 0) in Hx. destruct Hx as (j & Hj & <-). rewrite firstn_length in Hj.
  pose proof (nth_firstn_lt s j (S i) ltac:(lia)) as E.
  rewrite E. eapply Rle_trans; [|exact Hm]. apply sorted_nth; [exact H|lia].
Qed.
Lemma count_high s i m : StronglySorted Rle s -> (i < length s)%nat -> m <= nth i s 0 -> (length s - i <= length (filter (fun x => leb m x) s))%nat.
Proof.
  intros H Hi Hm. rewrite <- (firstn_skipn i s) at 2. rewrite filter_app, app_length.
  rewrite (filter_all _ (skipn i s)); [rewrite skipn_length; lia|].
  intros x Hx. apply leb_true. apply (In_nth _ _ 0) in Hx. destruct Hx as (j & Hj & <-). rewrite skipn_length in Hj.
  pose proof (nth_skipn_add s j i) as E.
  rewrite E. eapply Rle_trans; [exact Hm|]. apply sorted_nth; [exact H|lia].
Qed.

Lemma half_le n : (1 <= n)%nat -> (((n - 1) / 2 <= n / 2)%nat /\ (n / 2 < n)%nat /\ (n <= 2 * S ((n - 1) / 2))%nat /\ (2 * (n / 2) <= n)%nat).
Proof.
  intros H. pose proof (Nat.div_mod (n - 1) 2 ltac:(lia)). pose proof (Nat.mod_upper_bound (n - 1) 2 ltac:(lia)).
  pose proof (Nat.div_mod n 2 ltac:(lia)). pose proof (Nat.mod_upper_bound n 2 ltac:(lia)). lia.
Qed.

Lemma median_middle l : (1 <= length l)%nat ->
  (length l <= 2 * length (filter (fun x => leb x (median l)) l))%nat /\ (length l <= 2 * length (filter (fun x => leb (median l) x) l))%nat.
Proof.
  intros H. destruct (half_le _ H) as (A & B & C & D).
  pose proof (rsort_sorted l) as S. pose proof (rsort_length l) as L.
  assert (O : nth ((length l - 1) / 2) (rsort l) 0 <= nth (length l / 2) (rsort l) 0) by (apply sorted_nth; [exact S|lia]).
  rewrite (filter_perm _ _ _ (rsort_perm l)), (filter_perm (fun x => leb (median l) x) _ _ (rsort_perm l)).
  split.
  - pose proof (count_low (rsort l) ((length l - 1) / 2) (median l) S ltac:(lia) ltac:(unfold median; lra)). lia.
  - pose proof (count_high (rsort l) (length l / 2) (median l) S ltac:(lia) ltac:(unfold median; lra)). lia.
Qed.

(** distances as pairs *)
Lemma distances_pairs d n vals : distances d n vals = map (fun ij => l2_dist d (vals (fst ij)) (vals (snd ij))) (list_prod (seq 0 n) (seq 0 n)).
Proof.
  unfold distances. set (m := seq 0 n).
  assert (G : forall l, concat (map (fun i => map (fun j => l2_dist d (vals i) (vals j)) m) l)
                        = map (fun ij => l2_dist d (vals (fst ij)) (vals (snd ij))) (list_prod l m)).
  { induction l as [|i l IH]; [reflexivity|]. cbn [map concat list_prod]. rewrite IH, map_app, map_map. reflexivity. }
  apply G.
Qed.
Lemma prod_length n : length (list_prod (seq 0 n) (seq 0 n)) = (n * n)%nat.
Proof. rewrite prod_length, seq_length. reflexivity. Qed.
Lemma l2_euclid d x y : l2_dist d x y = euclid d x y.
Proof.
  unfold l2_dist, euclid. f_equal. set (f := fun i => (x i - y i) ^ 2).
  induction d as [|d IH]; [reflexivity|]. cbn [vsum]. rewrite seq_S, map_app, fold_right_app. cbn [map fold_right plus].
  rewrite IH. rewrite Rplus_0_r. generalize (map f (seq 0 d)). intros l.
  induction l as [|a l IHl]; cbn [fold_right]; [ring|]. rewrite <- IHl. ring.
Qed.
Lemma filter_map {A B} (f : A -> B) (P : B -> bool) l : length (filter P (map f l)) = length (filter (fun x => P (f x)) l).
Proof. induction l as [|x l IH]; [reflexivity|]. cbn. destruct (P (f x)); cbn; rewrite IH; reflexivity. Qed.

(** the median under relabelling and scaling *)
Lemma rinsert_comm x y l : rinsert x (rinsert y l) = rinsert y (rinsert x l).
Proof.
  induction l as [|z l IH]; cbn.
  - destruct (Rle_dec x y), (Rle_dec y x); try reflexivity; try lra. assert (x = y) by lra. subst. reflexivity.
  - destruct (Rle_dec y z), (Rle_dec x z); cbn;
      repeat match goal with |- context [Rle_dec ?a ?b] => destruct (Rle_dec a b) end; try lra; try reflexivity; try congruence.
    assert (x = y) by lra. subst. reflexivity.
Qed.
Lemma rsort_perm_eq l l' : Permutation l l' -> rsort l = rsort l'.
Proof. induction 1; cbn [rsort fold_right]; [reflexivity|fold (rsort l) (rsort l'); congruence|apply rinsert_comm|congruence]. Qed.
Lemma rsort_scale c l : 0 < c -> rsort (map (Rmult c) l) = map (Rmult c) (rsort l).
Proof.
  intros Hc.
  assert (I : forall x l, rinsert (c * x) (map (Rmult c) l) = map (Rmult c) (rinsert x l)).
  { intros x m. induction m as [|y m IH]; [reflexivity|]. cbn. destruct (Rle_dec (c * x) (c * y)) as [A|A], (Rle_dec x y) as [B|B].
    - reflexivity.
    - exfalso. apply B. apply Rmult_le_reg_l with c; assumption.
    - exfalso. apply A. apply Rmult_le_compat_l; lra.
    - cbn. rewrite IH. reflexivity. }
  induction l as [|x l IH]; [reflexivity|]. cbn. fold (rsort (map (Rmult c) l)). fold (rsort l). rewrite IH. apply I.
Qed.
Lemma median_perm l l' : Permutation l l' -> median l = median l'.
Proof. intros H. unfold median. rewrite (rsort_perm_eq _ _ H), (Permutation_length H). reflexivity. Qed.
Lemma median_scale c l : 0 < c -> median (map (Rmult c) l) = c * median l.
Proof.
  intros Hc. unfold median. rewrite rsort_scale, map_length by exact Hc.
  assert (N : forall i, nth i (map (Rmult c) (rsort l)) 0 = c * nth i (rsort l) 0).
  { intros i. rewrite <- (map_nth (Rmult c)), Rmult_0_r. reflexivity. }
  rewrite !N. field.
Qed.
Lemma list_prod_perm {A} (l l' : list A) : Permutation l l' -> Permutation (list_prod l l) (list_prod l' l').
Proof.
  intros H.
  assert (R1 : forall m m' : list A, Permutation m m' -> forall k : list A, Permutation (list_prod m k) (list_prod m' k)).
  { induction 1; intros k; cbn; auto.
    - apply Permutation_app_head. apply IHPermutation.
    - rewrite !app_assoc. apply Permutation_app_tail, Permutation_app_comm.
    - etransitivity; [apply IHPermutation1|apply IHPermutation2]. }
  assert (R2 : forall m k k' : list A, Permutation k k' -> Permutation (list_prod m k) (list_prod m k')).
  { induction m as [|x m IH]; intros k k' Hk; cbn; [constructor|].
    apply Permutation_app; [apply Permutation_map, Hk|apply IH, Hk]. }
  etransitivity; [apply R1, H|apply R2, H].
Qed.
Lemma l2_units d sg (a x y : vec) : 0 < sg -> l2_dist d (fun c => sg * x c + a c) (fun c => sg * y c + a c) = sg * l2_dist d x y.
Proof.
  intros Hs. unfold l2_dist. transitivity (sqrt (sg ^ 2) * sqrt (vsum d (fun i => (x i - y i) ^ 2))); [|rewrite sqrt_pow2 by lra; reflexivity].
  rewrite <- sqrt_mult_alt by (apply pow2_ge_0). f_equal.
  induction d as [|d IH]; cbn [vsum]; [ring|]. rewrite IH. ring.
Qed.

Lemma root_pos n : (2 <= n)%nat -> 0 < sqrt (2 * ln (INR n)).
Proof.
  intros H. apply sqrt_lt_R0. assert (1 < INR n) by (change 1 with (INR 1); apply lt_INR; lia).
  assert (0 < ln (INR n)) by (rewrite <- ln_1; apply ln_increasing; lra). lra.
Qed.
Lemma weight_typical d n m x y : (2 <= n)%nat -> m <> 0 -> l2_dist d x y = m ->
  gaussian_call d (fun _ => m / sqrt (2 * ln (INR n))) x y = 1 / INR n.
Proof.
  intros H Hm Hd. pose proof (root_pos n H) as Hr. assert (1 < INR n) by (change 1 with (INR 1); apply lt_INR; lia).
  assert (Hl : 0 < ln (INR n)) by (rewrite <- ln_1; apply ln_increasing; lra).
  assert (Q : sqrt (2 * ln (INR n)) * sqrt (2 * ln (INR n)) = 2 * ln (INR n)) by (apply sqrt_sqrt; lra).
  assert (P0 : 0 <= vsum d (fun i => (x i - y i) ^ 2)).
  { clear. induction d; cbn [vsum]; [lra|]. pose proof (pow2_ge_0 (x d - y d)). lra. }
  assert (M2 : vsum d (fun i => (x i - y i) ^ 2) = m * m).
  { rewrite <- Hd. unfold l2_dist. rewrite sqrt_sqrt; [reflexivity|exact P0]. }
  unfold gaussian_call. set (r := sqrt (2 * ln (INR n))) in *.
  assert (E : vsum d (fun i => ((x i - y i) / (m / r)) ^ 2) = vsum d (fun i => (x i - y i) ^ 2) * (r * r) / (m * m)).
  { clear - Hm Hr. induction d as [|k IH]; cbn [vsum]; [field; lra|]. rewrite IH. field. lra. }
  rewrite E, M2, Q. replace (- (1 / 2) * (m * m * (2 * ln (INR n)) / (m * m))) with (- ln (INR n)) by (field; exact Hm).
  rewrite exp_Ropp, exp_ln by lra. unfold Rdiv. ring.
Qed.
Lemma l2_nonneg d x y : 0 <= l2_dist d x y.
Proof. apply sqrt_pos. Qed.
Lemma median_bounds l lo : (1 <= length l)%nat -> (forall x, In x l -> lo <= x) -> lo <= median l.
Proof.
  intros H A. destruct (half_le _ H) as (B & C & _). pose proof (rsort_length l) as L.
  assert (I : forall i, (i < length l)%nat -> lo <= nth i (rsort l) 0).
  { intros i Hi. apply A. apply (Permutation_in _ (Permutation_sym (rsort_perm l))), nth_In. lia. }
  pose proof (I ((length l - 1) / 2)%nat ltac:(lia)). pose proof (I (length l / 2)%nat ltac:(lia)). unfold median. lra.
Qed.

Lemma median_pos l : (1 <= length l)%nat -> (forall x, In x l -> 0 <= x) ->
  (0 < median l <-> (2 * length (filter (fun x => leb x 0) l) <= length l)%nat).
Proof.
  intros H A. split.
  - intros M. destruct (median_middle l H) as [_ U]. revert U. set (m := median l) in *. clearbody m. intros U.
    assert (G : (length (filter (fun x => leb x 0) l) + length (filter (fun x => leb m x) l) <= length l)%nat).
    { clear - M. induction l as [|x l IH]; [cbn; lia|]. cbn.
      destruct (leb x 0) eqn:E, (leb m x) eqn:F; cbn; try lia. apply leb_true in E, F. lra. }
    lia.
  - intros C. destruct (half_le _ H) as (B & D & _). pose proof (rsort_length l) as L.
    assert (I : forall i, (i < length l)%nat -> 0 <= nth i (rsort l) 0).
    { intros i Hi. apply A. apply (Permutation_in _ (Permutation_sym (rsort_perm l))), nth_In. lia. }
    pose proof (I ((length l - 1) / 2)%nat ltac:(lia)). unfold median.
    destruct (Rle_dec (nth (length l / 2) (rsort l) 0) 0) as [Z|Z]; [exfalso|lra].
    pose proof (count_low (rsort l) (length l / 2) 0 (rsort_sorted l) ltac:(rewrite L; exact D) Z) as K.
    rewrite <- (filter_perm _ _ _ (rsort_perm l)) in K.
    pose proof (Nat.div_mod (length l) 2 ltac:(lia)). pose proof (Nat.mod_upper_bound (length l) 2 ltac:(lia)). lia.
Qed.
Lemma l2_zero d x y : l2_dist d x y <= 0 <-> forall c, (c < d)%nat -> x c = y c.
Proof.
  assert (P0 : forall k, 0 <= vsum k (fun i => (x i - y i) ^ 2)).
  { induction k as [|k IH]; cbn [vsum]; [lra|]. pose proof (pow2_ge_0 (x k - y k)). lra. }
  split.
  - intros H. assert (Z : vsum d (fun i => (x i - y i) ^ 2) = 0).
    { pose proof (l2_nonneg d x y). apply sqrt_eq_0; [apply P0|]. unfold l2_dist in *. lra. }
    clear H. induction d as [|k IH]; intros c Hc; [lia|]. cbn [vsum] in Z.
    pose proof (P0 k). pose proof (pow2_ge_0 (x k - y k)).
    destruct (Nat.eq_dec c k) as [->|N]; [|apply IH; [lra|lia]].
    assert (Q : (x k - y k) ^ 2 = 0) by lra. cbn [pow] in Q. rewrite Rmult_1_r in Q.
    apply Rmult_integral in Q. lra.
  - intros H. unfold l2_dist. right. replace (vsum d _) with 0; [apply sqrt_0|].
    induction d as [|k IH]; [reflexivity|]. cbn [vsum]. rewrite <- IH by (intros; [apply H; lia]).
    + rewrite (H k) by lia. ring.
Qed.
