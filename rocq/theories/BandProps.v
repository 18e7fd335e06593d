(** C128: what the bandwidth rules promise. *)
From Coq Require Import Reals List Arith Bool Lra Lia Permutation.
From Verif Require Import McmcModel KernelModel BandModel BandSpec BandProofs.
Import ListNotations.
Open Scope R_scope.

(** the median distance splits the pairs in half, and a pair exactly that far
    apart gets weight one over the number of particles *)
Theorem C128_median :
  forall d n vals, (2 <= n)%nat ->
  exists m, middle d n vals m
    /\ (m <> 0 -> forall x y, euclid d x y = m -> gaussian_call d (fun _ => median_bandwidth d n vals) x y = 1 / INR n).
Proof.
  intros d n vals H. exists (median (distances d n vals)). split.
  - assert (L : length (distances d n vals) = (n * n)%nat) by (rewrite distances_pairs, map_length; apply prod_length).
    destruct (median_middle (distances d n vals)) as [A B]; [rewrite L; nia|]. rewrite L in A, B.
    set (m := median (distances d n vals)) in *. clearbody m. rewrite distances_pairs in A, B.
    rewrite filter_map in A, B. split; unfold pairs_with.
    + rewrite (filter_ext _ (fun ij => leb (l2_dist d (vals (fst ij)) (vals (snd ij))) m)); [exact A|].
      intros ij. rewrite <- l2_euclid. reflexivity.
    + rewrite (filter_ext _ (fun ij => leb m (l2_dist d (vals (fst ij)) (vals (snd ij))))); [exact B|].
      intros ij. rewrite <- l2_euclid. reflexivity.
  - intros Hm x y E. rewrite <- l2_euclid in E. unfold median_bandwidth. apply weight_typical; assumption.
Qed.
Print Assumptions C128_median.

(** the same for the mean distance *)
Theorem C128_mean :
  forall d n vals m, (2 <= n)%nat ->
  INR n * INR n * m = fold_right Rplus 0 (map (fun ij => euclid d (vals (fst ij)) (vals (snd ij))) (list_prod (seq 0 n) (seq 0 n))) ->
  m <> 0 -> forall x y, euclid d x y = m -> gaussian_call d (fun _ => mean_bandwidth d n vals) x y = 1 / INR n.
Proof.
  intros d n vals m H Hs Hm x y E. rewrite <- l2_euclid in E.
  assert (V : vsum n (fun i => vsum n (fun j => l2_dist d (vals i) (vals j))) = INR n * INR n * m).
  { rewrite Hs. clear. set (f := fun i j => l2_dist d (vals i) (vals j)).
    assert (S1 : forall g k, vsum k g = fold_right Rplus 0 (map g (seq 0 k))).
    { intros g k. induction k as [|k IH]; [reflexivity|]. cbn [vsum]. rewrite seq_S, map_app, fold_right_app. cbn [map fold_right plus].
      rewrite IH, Rplus_0_r. generalize (map g (seq 0 k)). intros l.
      induction l as [|a l IHl]; cbn [fold_right]; [ring|]. rewrite <- IHl. ring. }
    assert (S2 : forall a b, fold_right Rplus 0 (a ++ b) = fold_right Rplus 0 a + fold_right Rplus 0 b).
    { induction a as [|z a IH]; intros b; cbn [app fold_right]; [ring|]. rewrite IH. ring. }
    rewrite S1. generalize (seq 0 n) at 1 2 as l.
    induction l as [|i l IH]; [reflexivity|]. cbn [map fold_right list_prod]. rewrite map_app, S2, IH, map_map. f_equal.
    rewrite S1. f_equal. apply map_ext. intros j. cbn [fst snd]. apply l2_euclid. }
  assert (N : 0 < INR n) by (apply lt_0_INR; lia).
  unfold mean_bandwidth. rewrite V. replace (INR n * INR n * m / (INR n * INR n)) with m by (field; lra).
  apply weight_typical; assumption.
Qed.
Print Assumptions C128_mean.

(** renaming the particles changes nothing; a change of origin and scale
    multiplies the median bandwidth by the scale *)
Theorem C128_units :
  forall d n vals p sg a, 0 < sg -> Permutation (map p (seq 0 n)) (seq 0 n) ->
  median_bandwidth d n (fun i c => sg * vals (p i) c + a c) = sg * median_bandwidth d n vals.
Proof.
  intros d n vals p sg a Hs Hp. unfold median_bandwidth.
  assert (E : median (distances d n (fun i c => sg * vals (p i) c + a c)) = sg * median (distances d n vals)).
  { rewrite <- median_scale by exact Hs. apply median_perm. rewrite !distances_pairs, map_map.
    set (g := fun ij : nat * nat => sg * l2_dist d (vals (fst ij)) (vals (snd ij))).
    etransitivity; [|apply Permutation_map, (list_prod_perm _ _ Hp)].
    assert (X : forall l k, list_prod (map p l) (map p k) = map (fun ij => (p (fst ij), p (snd ij))) (list_prod l k)).
    { induction l as [|i l IH]; intros k; [reflexivity|]. cbn [map list_prod]. rewrite IH, map_app, !map_map. reflexivity. }
    rewrite X, map_map. apply Permutation_refl'. apply map_ext. intros [i j]. unfold g. cbn [fst snd].
    apply l2_units, Hs. }
  rewrite E. unfold Rdiv. ring.
Qed.
Print Assumptions C128_units.

(** the median bandwidth is positive exactly when at most half of the ordered
    pairs, each particle with itself among them, coincide *)
Theorem C128_positive :
  forall d n vals (same : nat -> nat -> bool), (2 <= n)%nat ->
  (forall i j, same i j = true <-> forall c, (c < d)%nat -> vals i c = vals j c) ->
  (0 < median_bandwidth d n vals <-> (2 * pairs_with n same <= n * n)%nat)
  /\ 0 <= median_bandwidth d n vals
  /\ ((forall i j, (i < n)%nat -> (j < n)%nat -> i <> j -> same i j = false) -> 0 < median_bandwidth d n vals).
Proof.
  intros d n vals same H Hs. pose proof (root_pos n H) as Hr.
  assert (L : length (distances d n vals) = (n * n)%nat) by (rewrite distances_pairs, map_length; apply prod_length).
  assert (NN : forall x, In x (distances d n vals) -> 0 <= x).
  { intros x Hx. rewrite distances_pairs in Hx. apply in_map_iff in Hx. destruct Hx as ([i j] & <- & _). apply l2_nonneg. }
  assert (C : length (filter (fun x => leb x 0) (distances d n vals)) = pairs_with n same).
  { rewrite distances_pairs, filter_map. unfold pairs_with. f_equal. apply filter_ext. intros [i j]. cbn [fst snd].
    apply eq_true_iff_eq. rewrite leb_true, Hs. apply l2_zero. }
  assert (P : 0 < median_bandwidth d n vals <-> (2 * pairs_with n same <= n * n)%nat).
  { rewrite <- C, <- L, <- median_pos by (try exact NN; rewrite L; nia). unfold median_bandwidth. split; intros M.
    - apply Rnot_le_lt. intros Z. apply (Rlt_irrefl 0). eapply Rlt_le_trans; [exact M|].
      unfold Rdiv. apply Rinv_0_lt_compat in Hr. nra.
    - apply Rdiv_lt_0_compat; assumption. }
  split; [exact P|]. split.
  - unfold median_bandwidth. apply Rmult_le_pos; [|left; apply Rinv_0_lt_compat, Hr].
    apply median_bounds; [rewrite L; nia|exact NN].
  - intros D. apply P.
    assert (F : forall l, NoDup l -> (forall i, In i l -> i < n)%nat -> forall k, (forall i, In i k -> i < n)%nat -> NoDup k ->
      (length (filter (fun ij => same (fst ij) (snd ij)) (list_prod l k)) <= length l)%nat).
    { induction l as [|i l IH]; intros Nd Hl k Hk Ndk; [cbn; lia|]. cbn [list_prod]. rewrite filter_app, app_length, filter_map. cbn [fst snd length].
      inversion Nd; subst.
      assert (O : (length (filter (fun j => same i j) k) <= 1)%nat).
      { assert (Hi : (i < n)%nat) by (apply Hl; left; reflexivity). clear IH.
        revert Ndk Hk. clear - D Hi. intros Ndk Hk.
        assert (incl (filter (fun j => same i j) k) [i]).
        { intros j Hj. apply filter_In in Hj. destruct Hj as [Hj T]. left.
          destruct (Nat.eq_dec i j) as [E|E]; [exact E|]. rewrite (D i j Hi (Hk j Hj) E) in T. discriminate. }
        apply NoDup_incl_length in H; [exact H|]. apply NoDup_filter, Ndk. }
      specialize (IH ltac:(assumption) (fun i Hi => Hl i (or_intror Hi)) k Hk Ndk). lia. }
    specialize (F (seq 0 n) (seq_NoDup n 0) (fun i Hi => proj2 (proj1 (in_seq n 0 i) Hi)) (seq 0 n)
                  (fun i Hi => proj2 (proj1 (in_seq n 0 i) Hi)) (seq_NoDup n 0)).
    rewrite seq_length in F. unfold pairs_with. nia.
Qed.
Print Assumptions C128_positive.

(** three particles at one place and a fourth elsewhere: bandwidth zero, so the
    kernel divides by zero though the particles do not all agree *)
Theorem C128_positive_refuted :
  exists d n vals, (2 <= n)%nat
    /\ (exists i j c, (i < n)%nat /\ (j < n)%nat /\ (c < d)%nat /\ vals i c <> vals j c)
    /\ median_bandwidth d n vals = 0
    /\ 0 < mean_bandwidth d n vals.
Proof.
  exists 1%nat, 4%nat, (fun i _ => if Nat.eqb i 3 then 1 else 0). split; [lia|]. split.
  { exists 0%nat, 3%nat, 0%nat. cbn. repeat split; try lia; try lra. }
  set (vals := fun (i : nat) (_ : nat) => if Nat.eqb i 3 then 1 else 0).
  destruct (C128_positive 1 4 vals (fun i j => Bool.eqb (Nat.eqb i 3) (Nat.eqb j 3)) ltac:(lia)) as (P & N & _).
  { intros i j. rewrite eqb_true_iff. unfold vals. split.
    - intros E c _. rewrite E. reflexivity.
    - intros E. specialize (E 0%nat ltac:(lia)). destruct (Nat.eqb i 3), (Nat.eqb j 3); try reflexivity; lra. }
  split.
  - destruct N as [N|N]; [|symmetry; exact N]. exfalso. apply P in N. cbv in N. lia.
  - unfold mean_bandwidth. apply Rdiv_lt_0_compat; [|apply root_pos; lia]. apply Rdiv_lt_0_compat; [|cbn [INR]; lra].
    assert (D : forall i j, l2_dist 1 (vals i) (vals j) = if Bool.eqb (Nat.eqb i 3) (Nat.eqb j 3) then 0 else 1).
    { intros i j. unfold l2_dist, vals. cbn [vsum]. destruct (Nat.eqb i 3), (Nat.eqb j 3); cbn [Bool.eqb];
        [replace (0 + (1 - 1) ^ 2) with 0 by ring; apply sqrt_0
        |replace (0 + (1 - 0) ^ 2) with 1 by ring; apply sqrt_1
        |replace (0 + (0 - 1) ^ 2) with 1 by ring; apply sqrt_1
        |replace (0 + (0 - 0) ^ 2) with 0 by ring; apply sqrt_0]. }
    cbn [vsum]. rewrite !D. cbn. lra.
Qed.
Print Assumptions C128_positive_refuted.

(** two particles, three apart: distances 0, 3, 3, 0, median 3/2 *)
Example C128_example :
  let vals := (fun (i : nat) (_ : nat) => if Nat.eqb i 0 then 0 else 3) : nat -> vec in
  median_bandwidth 1 2 vals = (3 / 2) / sqrt (2 * ln 2)
  /\ gaussian_call 1 (fun _ => median_bandwidth 1 2 vals) (fun _ => 1) (fun _ => 5 / 2) = 1 / 2.
Proof.
  intros vals.
  assert (D : forall i j, l2_dist 1 (vals i) (vals j) = if Bool.eqb (Nat.eqb i 0) (Nat.eqb j 0) then 0 else 3).
  { intros i j. unfold l2_dist, vals. cbn [vsum]. destruct (Nat.eqb i 0), (Nat.eqb j 0); cbn [Bool.eqb];
      [replace (0 + (0 - 0) ^ 2) with 0 by ring; apply sqrt_0
      |replace (0 + (0 - 3) ^ 2) with (3 ^ 2) by ring; apply sqrt_pow2; lra
      |replace (0 + (3 - 0) ^ 2) with (3 ^ 2) by ring; apply sqrt_pow2; lra
      |replace (0 + (3 - 3) ^ 2) with 0 by ring; apply sqrt_0]. }
  assert (M : median (distances 1 2 vals) = 3 / 2).
  { unfold distances. cbn [seq map concat app]. rewrite !D. cbn [Nat.eqb Bool.eqb].
    unfold median, rsort. cbn [length fold_right]. cbn [rinsert].
    repeat match goal with |- context [Rle_dec ?a ?b] => destruct (Rle_dec a b); try lra; cbn [rinsert] end; cbn; lra. }
  assert (B : median_bandwidth 1 2 vals = (3 / 2) / sqrt (2 * ln 2)) by (unfold median_bandwidth; rewrite M; reflexivity).
  split; [exact B|]. rewrite B. apply (weight_typical 1 2 (3 / 2)); [lia|lra|].
  unfold l2_dist. cbn [vsum]. replace (0 + (1 - 5 / 2) ^ 2) with ((3 / 2) ^ 2) by field. apply sqrt_pow2. lra.
Qed.

(** the mean distance of the same two particles is also 3/2; swapped, doubled
    and moved by one, their median bandwidth doubles *)
Example C128_example_mean :
  let vals := (fun (i : nat) (_ : nat) => if Nat.eqb i 0 then 0 else 3) : nat -> vec in
  gaussian_call 1 (fun _ => mean_bandwidth 1 2 vals) (fun _ => 1) (fun _ => 5 / 2) = 1 / 2
  /\ median_bandwidth 1 2 (fun i c => 2 * vals (1 - i)%nat c + 1) = 3 / sqrt (2 * ln 2).
Proof.
  intros vals. split.
  - apply (C128_mean 1 2 vals (3 / 2)); [lia| |lra|].
    + unfold euclid. cbn. replace ((0 - 3) * ((0 - 3) * 1) + 0) with (3 ^ 2) by ring.
      replace ((3 - 0) * ((3 - 0) * 1) + 0) with (3 ^ 2) by ring. rewrite sqrt_pow2 by lra.
      replace ((0 - 0) * ((0 - 0) * 1) + 0) with 0 by ring. replace ((3 - 3) * ((3 - 3) * 1) + 0) with 0 by ring. rewrite sqrt_0. lra.
    + unfold euclid. cbn. replace ((1 - 5 / 2) * ((1 - 5 / 2) * 1) + 0) with ((3 / 2) ^ 2) by field. apply sqrt_pow2. lra.
  - rewrite (C128_units 1 2 vals (fun i => 1 - i)%nat 2 (fun _ => 1)); [|lra|apply perm_swap].
    destruct C128_example as [E _]. fold vals in E. rewrite E. field. apply Rgt_not_eq, (root_pos 2). lia.
Qed.
