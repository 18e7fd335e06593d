(** Proofs for ABC: sorting and quantiles. *)
From Coq Require Import Reals List Bool Arith ZArith Lia Lra Sorted Permutation.
From Verif Require Import XR Keys LoopModel LoopSpec LoopProofs McmcModel McmcSpec McmcProofs
  WeightsModel WeightsSpec WeightsProofs SmcModel SmcSpec AbcModel AbcSpec.
Import ListNotations.
Open Scope R_scope.

(** * Order on extended reals that are not NaN *)
Definition num (a : xr) : Prop := a <> NaN.

Lemma xleb_refl a : num a -> xleb a a = true.
Proof. destruct a; cbn; auto; intros; try (apply Rleb_true; lra); exfalso; auto. Qed.
Lemma xleb_trans a b c : xleb a b = true -> xleb b c = true -> xleb a c = true.
Proof.
  destruct a, b, c; cbn; auto; try discriminate. rewrite !Rleb_true. lra.
Qed.
Lemma xleb_total a b : num a -> num b -> xleb a b = false -> xleb b a = true.
Proof.
  intros A B. destruct a, b; cbn; try (unfold num in *; congruence); auto. rewrite Rleb_false, Rleb_true. lra.
Qed.
Lemma xltb_negb a b : num a -> num b -> xltb a b = negb (xleb b a).
Proof.
  intros A B. destruct a, b; cbn; try (unfold num in *; congruence); auto.
  destruct (Rltb r r0) eqn:X; [apply Rltb_true in X|apply Rltb_false in X];
  destruct (Rleb r0 r) eqn:Y; [apply Rleb_true in Y|apply Rleb_false in Y| apply Rleb_true in Y|apply Rleb_false in Y]; cbn; auto; lra.
Qed.

Lemma xinsert_perm x l : Permutation (x :: l) (xinsert x l).
Proof.
  induction l as [|y l IH]; cbn; [apply Permutation_refl|].
  destruct (xleb x y); [apply Permutation_refl|].
  eapply perm_trans; [apply perm_swap|]. apply perm_skip, IH.
Qed.
Lemma xsort_perm l : Permutation l (xsort l).
Proof.
  induction l as [|x l IH]; [apply Permutation_refl|]. cbn.
  eapply perm_trans; [apply perm_skip, IH|]. apply xinsert_perm.
Qed.
Lemma xsort_length l : length (xsort l) = length l.
Proof. symmetry. apply Permutation_length, xsort_perm. Qed.

Definition xle (a b : xr) : Prop := xleb a b = true.

Lemma xinsert_sorted x l : num x -> List.Forall num l -> StronglySorted xle l -> StronglySorted xle (xinsert x l).
Proof.
  intros Nx Nl S. induction S as [|y l S IH F]; cbn.
  - repeat constructor.
  - inversion Nl as [|? ? Ny Nl']; subst. destruct (xleb x y) eqn:X.
    + constructor; [constructor; auto|]. constructor; [exact X|].
      apply Forall_impl with (2 := F). intros z Hz. apply (xleb_trans x y z X Hz).
    + constructor; [apply IH; auto|].
      apply Forall_forall. intros z Hz.
      apply (Permutation_in z (Permutation_sym (xinsert_perm x l))) in Hz. destruct Hz as [<-|Hz].
      * apply xleb_total; auto.
      * rewrite Forall_forall in F. apply F, Hz.
Qed.
Lemma xsort_sorted l : List.Forall num l -> StronglySorted xle (xsort l).
Proof.
  induction 1 as [|x l N Nl IH]; cbn; [constructor|]. apply xinsert_sorted; auto.
  apply Forall_forall. intros z Hz. apply (Permutation_in z (Permutation_sym (xsort_perm l))) in Hz.
  rewrite Forall_forall in Nl. auto.
Qed.

Lemma sorted_nth (s : list xr) i j : StronglySorted xle s -> (i < j < length s)%nat -> xle (nth i s NaN) (nth j s NaN).
Proof.
  intros S. revert i j. induction S as [|x s S IH F]; intros i j H; [cbn in H; lia|].
  destruct j; [lia|]. destruct i; cbn.
  - rewrite Forall_forall in F. apply F, nth_In. cbn in H. lia.
  - apply IH. cbn in H. lia.
Qed.

Lemma sorted_nth_le (s : list xr) i j : StronglySorted xle s -> List.Forall num s -> (i <= j < length s)%nat ->
  xle (nth i s NaN) (nth j s NaN).
Proof.
  intros S N H. destruct (Nat.eq_dec i j) as [->|]; [|apply sorted_nth; auto; lia].
  apply xleb_refl. rewrite Forall_forall in N. apply N, nth_In. lia.
Qed.

Lemma filter_len_le {A} (P : A -> bool) l : (length (filter P l) <= length l)%nat.
Proof. induction l; cbn; [lia|]. destruct (P a); cbn; lia. Qed.

Lemma count_perm {A} (P : A -> bool) l l' : Permutation l l' -> count P l = count P l'.
Proof.
  unfold count. induction 1; cbn; auto.
  - destruct (P x); cbn; auto.
  - destruct (P x), (P y); reflexivity.
  - congruence.
Qed.

(** at most [j] elements are strictly below the [j]-th *)
Lemma count_below (s : list xr) j : StronglySorted xle s -> (j < length s)%nat ->
  (count (fun d => xltb d (nth j s NaN)) s <= j)%nat.
Proof.
  intros S Hj.
  assert (E : s = firstn j s ++ skipn j s) by (symmetry; apply firstn_skipn).
  unfold count. set (P := fun d => xltb d (nth j s NaN)).
  replace (filter P s) with (filter P (firstn j s ++ skipn j s)) by (rewrite firstn_skipn; reflexivity).
  rewrite filter_app, app_length. unfold P.
  assert (Z : filter (fun d => xltb d (nth j s NaN)) (skipn j s) = []).
  { assert (A : forall d, In d (skipn j s) -> xltb d (nth j s NaN) = false).
    { intros d Hd. apply In_nth with (d := NaN) in Hd. destruct Hd as (i & Hi & <-).
      rewrite skipn_length in Hi.
      assert (N : nth i (skipn j s) NaN = nth (j + i) s NaN).
      { transitivity (nth (j + i) (firstn j s ++ skipn j s) NaN); [|rewrite firstn_skipn; reflexivity].
        rewrite app_nth2; rewrite firstn_length_le by lia; [|lia]. f_equal. lia. }
      rewrite N. destruct (nth j s NaN) eqn:Y, (nth (j + i) s NaN) eqn:X; cbn; auto.
      all: assert (X' : j = (j + i)%nat \/ (j < j + i)%nat) by lia; destruct X' as [X'|X'];
        [rewrite <- X' in X; rewrite Y in X; try discriminate X; inversion X; subst; apply Rltb_false; lra|].
      all: pose proof (sorted_nth s j (j + i) S ltac:(lia)) as L; unfold xle in L; rewrite Y, X in L; cbn in L; try discriminate.
      apply Rltb_false. apply Rleb_true in L. lra. }
    clear E S Hj. induction (skipn j s) as [|a l IH]; [reflexivity|]. cbn. rewrite A by (left; auto).
    apply IH. intros; apply A; right; auto. }
  rewrite Z. cbn. pose proof (filter_len_le (fun d => xltb d (nth j s NaN)) (firstn j s)).
  rewrite firstn_length_le in H by lia. lia.
Qed.

(** if more than [j] elements are at most [t], so is the [j]-th *)
Lemma nth_at_most (s : list xr) t j : StronglySorted xle s -> (j < count (fun d => xleb d t) s)%nat ->
  xleb (nth j s NaN) t = true.
Proof.
  intros S. revert j. induction S as [|x s S IH F]; intros j H; [cbn in H; lia|].
  unfold count in *. cbn [filter] in H. destruct (xleb x t) eqn:X.
  - cbn in H. destruct j; cbn; [exact X|]. apply IH. lia.
  - exfalso. assert (Z : filter (fun d => xleb d t) s = []).
    { clear -F X. induction F as [|y s Hy F IH]; [reflexivity|]. cbn.
      destruct (xleb y t) eqn:Y; [|exact IH]. rewrite (xleb_trans x y t Hy Y) in X. discriminate. }
    rewrite Z in H. cbn in H. lia.
Qed.

(** * Quantiles *)
Lemma existsb_isnan l : existsb isnan l = false <-> List.Forall num l.
Proof.
  induction l as [|x l IH]; cbn; [split; auto|]. rewrite orb_false_iff, IH. split.
  - intros [A B]. constructor; auto. intros ->. discriminate.
  - intros F. inversion F; subst. split; auto. destruct x; auto. exfalso. apply H1. reflexivity.
Qed.

Lemma frac_bounds h : 0 <= h - IZR (Int_part h) < 1.
Proof. destruct (base_Int_part h). lra. Qed.

(** [x] strictly below an interpolated value is below the upper point *)
Lemma below_interp d lo hi w : 0 <= w < 1 -> num lo -> num hi -> xleb lo hi = true ->
  xltb d (xadd (xmul lo (Fin (1 - w))) (xmul hi (Fin w))) = true -> xltb d hi = true.
Proof.
  intros Hw Nl Nh L H.
  destruct lo as [a| | |], hi as [b| | |], d as [x| | |]; cbn in *;
    try destruct (Rlt_dec 0 (1 - w)); try destruct (Rlt_dec 0 w); try destruct (Rlt_dec w 0); try lra;
    cbn in *; try discriminate; auto.
  all: try (exfalso; auto; fail).
  all: apply Rltb_true in H; apply Rleb_true in L; apply Rltb_true; nra.
Qed.

(** the indices used by [quantile] *)
Definition q_lo (l : list xr) (q : R) : Z := Int_part (q * (INR (length l) - 1)).
Definition q_w (l : list xr) (q : R) : R := q * (INR (length l) - 1) - IZR (q_lo l q).
Definition q_hi (l : list xr) (q : R) : Z := if Req_EM_T (q_w l q) 0 then q_lo l q else (q_lo l q + 1)%Z.

Lemma quantile_eq l q : List.Forall num l ->
  quantile l q = xadd (xmul (nth (clamp (length l) (q_lo l q)) (xsort l) NaN) (Fin (1 - q_w l q)))
                      (xmul (nth (clamp (length l) (q_hi l q)) (xsort l) NaN) (Fin (q_w l q))).
Proof. intros N. unfold quantile. rewrite (proj2 (existsb_isnan l) N). reflexivity. Qed.

Lemma clamp_lt n z : (1 <= n)%nat -> (clamp n z < n)%nat.
Proof. intros. unfold clamp. lia. Qed.
Lemma clamp_mono n a b : (a <= b)%Z -> (clamp n a <= clamp n b)%nat.
Proof. intros. unfold clamp. lia. Qed.
Lemma q_lo_hi l q : (q_lo l q <= q_hi l q <= q_lo l q + 1)%Z.
Proof. unfold q_hi. destruct (Req_EM_T _ _); lia. Qed.

(** [q_hi] is the ceiling *)
Lemma q_hi_le l q (m : Z) : q * (INR (length l) - 1) <= IZR m -> (q_hi l q <= m)%Z.
Proof.
  intros H. unfold q_hi. pose proof (frac_bounds (q * (INR (length l) - 1))) as F. fold (q_lo l q) in F. fold (q_w l q) in F.
  assert (E : q * (INR (length l) - 1) = IZR (q_lo l q) + q_w l q) by (unfold q_w; lra).
  destruct (Req_EM_T (q_w l q) 0) as [Z|Z].
  - apply le_IZR. lra.
  - assert (IZR (q_lo l q) < IZR m) by lra. apply lt_IZR in H0. lia.
Qed.

Lemma num_sorted l : List.Forall num l -> List.Forall num (xsort l).
Proof.
  intros N. rewrite Forall_forall in *. intros x Hx. apply N.
  apply (Permutation_in x (Permutation_sym (xsort_perm l)) Hx).
Qed.

(** the number strictly below the quantile *)
Lemma count_quantile l q k : (1 <= length l)%nat -> q * (INR (length l) - 1) <= INR k ->
  (count (fun d => xltb d (quantile l q)) l <= k)%nat.
Proof.
  intros Hl Hk. destruct (existsb isnan l) eqn:X.
  - unfold quantile. rewrite X. unfold count.
    assert (E : forall m, filter (fun d => xltb d NaN) m = []).
    { induction m as [|x m IH]; [reflexivity|]. cbn. destruct x; exact IH. }
    rewrite E. cbn. lia.
  - apply existsb_isnan in X. pose proof (xsort_sorted l X) as S. pose proof (num_sorted l X) as N.
    rewrite (count_perm _ _ _ (xsort_perm l)).
    rewrite (quantile_eq l q X).
    set (lo := nth (clamp (length l) (q_lo l q)) (xsort l) NaN). set (hi := nth (clamp (length l) (q_hi l q)) (xsort l) NaN).
    assert (Cl : (clamp (length l) (q_hi l q) <= k)%nat).
    { pose proof (q_hi_le l q (Z.of_nat k)) as H. rewrite <- INR_IZR_INZ in H. specialize (H Hk). unfold clamp. lia. }
    assert (Lh : (clamp (length l) (q_hi l q) < length (xsort l))%nat) by (rewrite xsort_length; apply clamp_lt; auto).
    assert (Ll : (clamp (length l) (q_lo l q) < length (xsort l))%nat) by (rewrite xsort_length; apply clamp_lt; auto).
    assert (LE : xleb lo hi = true).
    { apply (sorted_nth_le _ _ _ S N). split; auto. apply clamp_mono. apply q_lo_hi. }
    pose proof (count_below (xsort l) _ S Lh) as B. fold hi in B.
    assert (M : forall m, (length (filter (fun d => xltb d (xadd (xmul lo (Fin (1 - q_w l q))) (xmul hi (Fin (q_w l q))))) m)
               <= length (filter (fun d => xltb d hi) m))%nat).
    { induction m as [|x m IH]; [cbn; lia|]. cbn [filter].
      destruct (xltb x (xadd _ _)) eqn:Y.
      - rewrite (below_interp x lo hi (q_w l q)); [cbn; lia| |..].
        + apply frac_bounds. + rewrite Forall_forall in N. apply N, nth_In; auto.
        + rewrite Forall_forall in N. apply N, nth_In; auto. + exact LE. + exact Y.
      - destruct (xltb x hi); cbn; lia. }
    unfold count in *. specialize (M (xsort l)). lia.
Qed.

(** Real lists *)
Definition fins (l : list R) : list xr := map Fin l.

Lemma fins_num l : List.Forall num (fins l).
Proof. unfold fins. rewrite Forall_map. apply Forall_forall. intros x _. discriminate. Qed.

Lemma finite_fins l : List.Forall finite l -> exists r, l = fins r.
Proof.
  induction 1 as [|x l [r ->] F [rs ->]]; [exists []; reflexivity | exists (r :: rs); reflexivity].
Qed.

Lemma finite_sorted l : List.Forall finite l -> List.Forall finite (xsort l).
Proof.
  intros N. rewrite Forall_forall in *. intros x Hx. apply N.
  apply (Permutation_in x (Permutation_sym (xsort_perm l)) Hx).
Qed.

Lemma finite_num l : List.Forall finite l -> List.Forall num l.
Proof. intros F. apply Forall_impl with (2 := F). intros x [r ->]. discriminate. Qed.

Lemma quantile_finite l q : List.Forall finite l -> (1 <= length l)%nat ->
  exists lo hi, nth (clamp (length l) (q_lo l q)) (xsort l) NaN = Fin lo
    /\ nth (clamp (length l) (q_hi l q)) (xsort l) NaN = Fin hi /\ lo <= hi
    /\ quantile l q = Fin (lo * (1 - q_w l q) + hi * q_w l q).
Proof.
  intros F Hl. pose proof (finite_num l F) as N. pose proof (xsort_sorted l N) as S.
  pose proof (finite_sorted l F) as Fs.
  assert (Lh : (clamp (length l) (q_hi l q) < length (xsort l))%nat) by (rewrite xsort_length; apply clamp_lt; auto).
  assert (Ll : (clamp (length l) (q_lo l q) < length (xsort l))%nat) by (rewrite xsort_length; apply clamp_lt; auto).
  assert (LE : xle (nth (clamp (length l) (q_lo l q)) (xsort l) NaN) (nth (clamp (length l) (q_hi l q)) (xsort l) NaN)).
  { apply (sorted_nth_le _ _ _ S (num_sorted l N)). split; auto. apply clamp_mono. apply q_lo_hi. }
  rewrite (quantile_eq l q N).
  rewrite Forall_forall in Fs.
  destruct (Fs _ (nth_In _ NaN Ll)) as [a Ea]. destruct (Fs _ (nth_In _ NaN Lh)) as [b Eb].
  exists a, b. rewrite Ea, Eb in *. split; [auto|]. split; [auto|]. split; [apply Rleb_true, LE | reflexivity].
Qed.

(** the quantile is at most [t] when enough elements are *)
Lemma quantile_at_most l q t m : List.Forall finite l -> (1 <= length l)%nat -> finite t ->
  (m < count (fun d => xleb d t) l)%nat -> q * (INR (length l) - 1) <= INR m ->
  finite (quantile l q) /\ xleb (quantile l q) t = true.
Proof.
  intros F Hl [tr ->] C H. destruct (quantile_finite l q F Hl) as (lo & hi & E1 & E2 & L & ->).
  split; [eexists; reflexivity|].
  pose proof (frac_bounds (q * (INR (length l) - 1))) as W. fold (q_lo l q) in W. fold (q_w l q) in W.
  assert (Hh : xleb (Fin hi) (Fin tr) = true).
  { rewrite <- E2. apply nth_at_most; [apply xsort_sorted, finite_num, F|].
    rewrite <- (count_perm _ _ _ (xsort_perm l)).
    pose proof (q_hi_le l q (Z.of_nat m)) as Q. rewrite <- INR_IZR_INZ in Q. specialize (Q H). unfold clamp. lia. }
  cbn in Hh. apply Rleb_true in Hh. cbn. apply Rleb_true. nra.
Qed.

(** someone is always at most the quantile *)
Lemma quantile_survivor l q : List.Forall finite l -> (1 <= length l)%nat ->
  exists d, In d l /\ xleb d (quantile l q) = true.
Proof.
  intros F Hl. destruct (quantile_finite l q F Hl) as (lo & hi & E1 & E2 & L & ->).
  exists (Fin lo). split.
  - apply (Permutation_in _ (Permutation_sym (xsort_perm l))). rewrite <- E1. apply nth_In.
    rewrite xsort_length. apply clamp_lt; auto.
  - cbn. apply Rleb_true. pose proof (frac_bounds (q * (INR (length l) - 1))) as W. fold (q_lo l q) in W. fold (q_w l q) in W. nra.
Qed.

(** [quantile] on reals is the interpolated quantile of the specification *)
Lemma quantile_spec (l : list R) q : (1 <= length l)%nat -> 0 <= q <= 1 ->
  exists Q, quantile (fins l) q = Fin Q /\ is_quantile l q Q.
Proof.
  intros Hl Hq.
  assert (F : List.Forall finite (fins l)) by (unfold fins; rewrite Forall_map; apply Forall_forall; intros; eexists; reflexivity).
  assert (Len : length (fins l) = length l) by apply map_length.
  assert (Hl' : (1 <= length (fins l))%nat) by lia.
  destruct (quantile_finite (fins l) q F Hl') as (lo & hi & E1 & E2 & L & E).
  pose proof (frac_bounds (q * (INR (length (fins l)) - 1))) as W. fold (q_lo (fins l) q) in W. fold (q_w (fins l) q) in W.
  assert (Eh : q * (INR (length l) - 1) = IZR (q_lo (fins l) q) + q_w (fins l) q) by (unfold q_w; rewrite Len; lra).
  pose proof (q_hi_le (fins l) q (Z.of_nat (length l - 1))) as Qh.
  rewrite <- INR_IZR_INZ, minus_INR, Len in Qh by lia. cbn [INR] in Qh.
  assert (Hn : 1 <= INR (length l)) by (change 1 with (INR 1); apply le_INR; lia).
  specialize (Qh ltac:(nra)).
  set (w := q_w (fins l) q) in *. set (z := q_lo (fins l) q) in *.
  assert (Hz : (0 <= z)%Z).
  { assert (A : -1 < IZR z) by nra. apply lt_IZR in A. lia. }
  exists (lo * (1 - w) + hi * w). split; [exact E|].
  destruct (finite_fins (xsort (fins l)) (finite_sorted _ F)) as [s Es].
  exists s. rewrite Es in *.
  assert (P : Permutation l s).
  { assert (P : Permutation (fins l) (fins s)) by (rewrite <- Es; apply xsort_perm).
    apply (Permutation_map rval) in P. unfold fins in P. rewrite !map_map in P. cbn in P. rewrite !map_id in P. exact P. }
  pose proof (Permutation_length P) as Ls.
  split; [exact P|]. split.
  { pose proof (xsort_sorted (fins l) (finite_num _ F)) as S. rewrite Es in S. clear -S.
    induction s as [|x s IH]; [constructor|]. inversion S as [|? ? S' F]; subst. constructor; [apply IH, S'|].
    unfold fins in F. rewrite Forall_map in F. apply Forall_impl with (2 := F). intros y Hy. apply Rleb_true, Hy. }
  pose proof (q_lo_hi (fins l) q) as LH. fold z in LH.
  assert (Nth : forall i x, nth i (fins s) NaN = Fin x -> nth i s 0 = x).
  { intros i x Hx. destruct (lt_dec i (length s)) as [Hi|Hi].
    - assert (A : nth i (fins s) (Fin 0) = Fin x).
      { rewrite <- Hx. apply nth_indep. unfold fins. rewrite map_length. exact Hi. }
      unfold fins in A. rewrite map_nth in A. congruence.
    - rewrite nth_overflow in Hx by (unfold fins; rewrite map_length; lia). discriminate. }
  exists (Z.to_nat z), w. split; [exact W|]. split; [rewrite Eh, INR_IZR_INZ, Z2Nat.id by lia; reflexivity|].
  split; [unfold q_hi in Qh; fold w z in Qh; destruct (Req_EM_T w 0); lia|].
  rewrite Len in *. apply Nth in E1. apply Nth in E2.
  unfold q_hi in *. fold w z in E2, Qh.
  destruct (Req_EM_T w 0) as [Z0|Z0].
  - split; [lra|]. rewrite Z0. replace (clamp (length l) z) with (Z.to_nat z) in E1 by (unfold clamp; lia). rewrite E1. lra.
  - split; [lia|]. replace (clamp (length l) z) with (Z.to_nat z) in E1 by (unfold clamp; lia).
    replace (clamp (length l) (z + 1)) with (S (Z.to_nat z)) in E2 by (unfold clamp; lia). rewrite E1, E2. lra.
Qed.
