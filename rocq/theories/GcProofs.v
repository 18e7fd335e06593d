(** Facts on the Gaspari-Cohn taper. *)
From Coq Require Import Reals ZArith Bool Lra Lia Psatz.
From Coquelicot Require Import Coquelicot.
From Verif Require Import XR SsmSpec SsmProofs GcModel GcSpec.
Open Scope R_scope.

(** ** The two pieces *)
Lemma gc_mid_factor u : u <> 0 -> gc_mid u = (2 - u) ^ 4 * (u ^ 2 + 2 * u - 1 / 2) / (12 * u).
Proof. intros H. unfold gc_mid. field. exact H. Qed.

Lemma gc_close_deriv u : is_derive gc_close u (u * (- (5 / 4) * u ^ 3 + 2 * u ^ 2 + 15 / 8 * u - 10 / 3)).
Proof. unfold gc_close. auto_derive; [exact I|]. simpl. field. Qed.

Lemma gc_mid_deriv u : u <> 0 ->
  is_derive gc_mid u ((2 - u) ^ 3 * (- 5 * u ^ 3 - 6 * u ^ 2 + 3 / 2 * u + 1) / (12 * u ^ 2)).
Proof. intros H. unfold gc_mid. auto_derive; [exact H|]. simpl. field. exact H. Qed.

Lemma decreasing_of_derive f df a b :
  (forall x, a <= x <= b -> is_derive f x (df x)) -> (forall x, a <= x <= b -> df x <= 0) ->
  forall x y, a <= x -> x <= y -> y <= b -> f y <= f x.
Proof.
  intros D N x y Hx Hxy Hy.
  destruct (MVT_gen f x y df) as (c & Hc & E).
  - intros z Hz. rewrite Rmin_left, Rmax_right in Hz by lra. apply D. lra.
  - intros z Hz. rewrite Rmin_left, Rmax_right in Hz by lra.
    apply continuity_pt_filterlim, (ex_derive_continuous f). exists (df z). apply D. lra.
  - rewrite Rmin_left, Rmax_right in Hc by lra. pose proof (N c ltac:(lra)). nra.
Qed.

Lemma gc_close_dec x y : 0 <= x -> x <= y -> y <= 1 -> gc_close y <= gc_close x.
Proof.
  apply (decreasing_of_derive gc_close (fun u => u * (- (5 / 4) * u ^ 3 + 2 * u ^ 2 + 15 / 8 * u - 10 / 3)) 0 1).
  - intros z _. apply gc_close_deriv.
  - intros z Hz. assert (- (5 / 4) * z ^ 3 + 2 * z ^ 2 + 15 / 8 * z - 10 / 3 <= 0) by nra. nra.
Qed.

Lemma gc_mid_dec x y : 1 <= x -> x <= y -> y <= 2 -> gc_mid y <= gc_mid x.
Proof.
  apply (decreasing_of_derive gc_mid (fun u => (2 - u) ^ 3 * (- 5 * u ^ 3 - 6 * u ^ 2 + 3 / 2 * u + 1) / (12 * u ^ 2)) 1 2).
  - intros z Hz. apply gc_mid_deriv. lra.
  - intros z Hz. assert (0 < 12 * z ^ 2) by nra. assert (0 <= (2 - z) ^ 3) by (apply pow_le; lra).
    assert (- 5 * z ^ 3 - 6 * z ^ 2 + 3 / 2 * z + 1 <= 0) by nra.
    unfold Rdiv. apply Rmult_le_0_r; [nra|]. left. apply Rinv_0_lt_compat. assumption.
Qed.

Lemma gc_join : gc_close 1 = 5 / 24 /\ gc_mid 1 = 5 / 24 /\ gc_mid 2 = 0 /\ gc_close 0 = 1.
Proof. unfold gc_close, gc_mid. repeat split; field. Qed.

(** ** The taper as a function of one clamped argument *)
Definition clamp (a b x : R) : R := Rmax a (Rmin b x).
Definition taper (u : R) : R := gc_close (clamp 0 1 u) + gc_mid (clamp 1 2 u) - 5 / 24.

Lemma gc_taper z r : 0 < r -> 0 <= z -> gc z r = taper (z / r).
Proof.
  intros Hr Hz. unfold gc, taper, clamp. rewrite (Rabs_right z) by lra.
  destruct gc_join as (J1 & J2 & J3 & _).
  assert (Hu : 0 <= z / r) by (apply Rmult_le_pos; [|left; apply Rinv_0_lt_compat]; lra).
  assert (E : z = z / r * r) by (field; lra).
  set (u := z / r) in *.
  unfold Rltb, Rleb. destruct (Rle_dec r z) as [H1|H1]; destruct (Rlt_dec z (2 * r)) as [H2|H2];
    destruct (Rlt_dec z r) as [H3|H3]; cbn [andb]; try lra.
  - assert (1 <= u <= 2) by (split; nra).
    rewrite (Rmin_left 1 u), (Rmax_right 0 1), J1, (Rmin_right 2 u), (Rmax_right 1 u) by lra. lra.
  - assert (2 <= u) by nra.
    rewrite (Rmin_left 1 u), (Rmax_right 0 1), J1, (Rmin_left 2 u), (Rmax_right 1 2), J3 by lra. lra.
  - assert (u <= 1) by nra.
    rewrite (Rmin_right 1 u), (Rmax_right 0 u), (Rmin_right 2 u), (Rmax_left 1 u), J2 by lra. lra.
Qed.

Lemma clamp_in a b x : a <= b -> a <= clamp a b x <= b.
Proof. intros H. unfold clamp, Rmax, Rmin. repeat destruct Rle_dec; lra. Qed.
Lemma clamp_mono a b x y : x <= y -> clamp a b x <= clamp a b y.
Proof. intros H. unfold clamp, Rmax, Rmin. repeat destruct Rle_dec; lra. Qed.

Lemma taper_dec u v : u <= v -> taper v <= taper u.
Proof.
  intros H. unfold taper.
  pose proof (clamp_in 0 1 u ltac:(lra)). pose proof (clamp_in 0 1 v ltac:(lra)).
  pose proof (clamp_in 1 2 u ltac:(lra)). pose proof (clamp_in 1 2 v ltac:(lra)).
  pose proof (gc_close_dec (clamp 0 1 u) (clamp 0 1 v) ltac:(lra) (clamp_mono _ _ _ _ H) ltac:(lra)).
  pose proof (gc_mid_dec (clamp 1 2 u) (clamp 1 2 v) ltac:(lra) (clamp_mono _ _ _ _ H) ltac:(lra)). lra.
Qed.

Lemma taper_0 u : u <= 0 -> taper u = 1.
Proof.
  intros H. unfold taper, clamp. destruct gc_join as (J1 & J2 & J3 & J4).
  rewrite (Rmin_right 1 u), (Rmax_left 0 u), (Rmin_right 2 u), (Rmax_left 1 u), J2, J4 by lra. lra.
Qed.
Lemma taper_2 u : 2 <= u -> taper u = 0.
Proof.
  intros H. unfold taper, clamp. destruct gc_join as (J1 & J2 & J3 & J4).
  rewrite (Rmin_left 1 u), (Rmax_right 0 1), (Rmin_left 2 u), (Rmax_right 1 2), J1, J3 by lra. lra.
Qed.

Lemma taper_range u : 0 <= taper u <= 1.
Proof.
  split.
  - destruct (Rle_dec u 2) as [H|H]; [|rewrite taper_2; lra].
    rewrite <- (taper_2 2 ltac:(lra)). apply taper_dec. exact H.
  - destruct (Rle_dec 0 u) as [H|H]; [|rewrite taper_0; lra].
    rewrite <- (taper_0 0 ltac:(lra)). apply taper_dec. exact H.
Qed.

Lemma clamp_continuous a b x : continuous (clamp a b) x.
Proof.
  apply (continuous_ext (fun x => (a + (b + x - Rabs (b - x)) / 2 + Rabs (a - (b + x - Rabs (b - x)) / 2)) / 2)).
  - intros y. unfold clamp, Rmax, Rmin, Rabs. repeat (destruct Rle_dec || destruct Rcase_abs); lra.
  - apply continuity_pt_filterlim. reg.
Qed.

Lemma taper_continuous u : continuous taper u.
Proof.
  unfold taper. apply (continuous_minus (fun u => gc_close (clamp 0 1 u) + gc_mid (clamp 1 2 u)) (fun _ => 5 / 24));
    [|apply continuous_const].
  apply (continuous_plus (fun u => gc_close (clamp 0 1 u)) (fun u => gc_mid (clamp 1 2 u))).
  - apply (continuous_comp (clamp 0 1) gc_close); [apply clamp_continuous|].
    apply (ex_derive_continuous gc_close). eexists. apply gc_close_deriv.
  - apply (continuous_comp (clamp 1 2) gc_mid); [apply clamp_continuous|].
    apply (ex_derive_continuous gc_mid). eexists. apply gc_mid_deriv.
    pose proof (clamp_in 1 2 u ltac:(lra)). lra.
Qed.

(** ** Distances *)
Lemma gc_distance_cyclic dim i j : (0 <= i < dim)%Z -> (0 <= j < dim)%Z ->
  cyclic_distance dim i j (gc_distance dim i j).
Proof.
  intros Hi Hj. unfold cyclic_distance, gc_distance. split.
  - destruct (Z.min_spec (Z.min (Z.abs (j - i)) (Z.abs (j + dim - i))) (Z.abs (j - dim - i))) as [[_ ->]|[_ ->]].
    + destruct (Z.min_spec (Z.abs (j - i)) (Z.abs (j + dim - i))) as [[_ ->]|[_ ->]]; [exists 0%Z|exists 1%Z]; f_equal; ring.
    + exists (-1)%Z. f_equal. ring.
  - intros k. assert (k = 0 \/ k = 1 \/ k = -1 \/ 2 <= k \/ k <= -2)%Z as [->|[->|[->|[H|H]]]] by lia; [lia..| |].
    + assert (2 * dim <= k * dim)%Z by nia. lia.
    + assert (k * dim <= -2 * dim)%Z by nia. lia.
Qed.

Lemma cyclic_distance_unique dim i j c c' : cyclic_distance dim i j c -> cyclic_distance dim i j c' -> c = c'.
Proof.
  intros [[k ->] A] [[k' ->] A']. apply Z.le_antisymm; [apply A|apply A'].
Qed.

Lemma cyclic_distance_sym dim i j c : cyclic_distance dim i j c -> cyclic_distance dim j i c.
Proof.
  intros [[k E] A]. split.
  - exists (- k)%Z. rewrite E, <- Z.abs_opp. f_equal. ring.
  - intros k'. specialize (A (- k')%Z). rewrite <- Z.abs_opp in A.
    replace (- (j - i + - k' * dim))%Z with (i - j + k' * dim)%Z in A by ring. exact A.
Qed.

Lemma cyclic_distance_shift dim i j a b c :
  cyclic_distance dim i j c -> cyclic_distance dim (i + a * dim) (j + b * dim) c.
Proof.
  intros [[k E] A]. split.
  - exists (k + a - b)%Z. rewrite E. f_equal. ring.
  - intros k'. specialize (A (k' + b - a)%Z).
    replace (j + b * dim - (i + a * dim) + k' * dim)%Z with (j - i + (k' + b - a) * dim)%Z by ring. exact A.
Qed.

(** ** Diagonally dominant matrices *)
Lemma sumn_le n f g : (forall i, (i < n)%nat -> f i <= g i) -> sumn n f <= sumn n g.
Proof. induction n; intros H; cbn; [lra|]. pose proof (H n ltac:(lia)). specialize (IHn ltac:(auto)). lra. Qed.
Lemma sumn_scal n c f : sumn n (fun i => c * f i) = c * sumn n f.
Proof. induction n; cbn; [ring|]. rewrite IHn. ring. Qed.
Lemma sumn_swap n m f : sumn n (fun i => sumn m (fun j => f i j)) = sumn m (fun j => sumn n (fun i => f i j)).
Proof.
  induction n; cbn; [symmetry; induction m; cbn; lra|]. rewrite IHn, <- sumn_plus. reflexivity.
Qed.
Lemma sumn_hit n p c : 0 <= c -> sumn n (fun j => if Z.eqb (Z.of_nat j) p then c else 0) <= c.
Proof.
  intros Hc. assert (H : sumn n (fun j => if Z.eqb (Z.of_nat j) p then c else 0)
     <= if Z.ltb p (Z.of_nat n) then c else 0).
  { induction n as [|n IH]; cbn [sumn]; [destruct (Z.ltb _ _); lra|].
    destruct (Z.eqb_spec (Z.of_nat n) p); destruct (Z.ltb_spec p (Z.of_nat n)); destruct (Z.ltb_spec p (Z.of_nat (S n))); try lia; lra. }
  destruct (Z.ltb _ _); lra.
Qed.
Lemma sumn_diag n i f : (i < n)%nat -> sumn n (fun j => if Nat.eqb i j then f j else 0) = f i.
Proof.
  intros H. induction n as [|n IH]; [lia|]. cbn [sumn]. destruct (Nat.eqb_spec i n) as [->|N].
  - assert (Z : sumn n (fun j => if Nat.eqb n j then f j else 0) = 0); [|lra].
    etransitivity; [|apply (sumn_0 n)]. apply sumn_ext. intros j Hj. destruct (Nat.eqb_spec n j); [lia|reflexivity].
  - rewrite IH by lia. lra.
Qed.

Lemma dominant_psd d (N : nat -> nat -> R) (a : nat -> R) c :
  (forall i j, (i < d)%nat -> (j < d)%nat -> N i j = N j i /\ 0 <= N i j) ->
  (forall i, (i < d)%nat -> sumn d (fun j => N i j) <= c) ->
  - c * sumn d (fun i => a i * a i) <= sumn d (fun i => sumn d (fun j => a i * N i j * a j)).
Proof.
  intros H R.
  assert (A : sumn d (fun i => sumn d (fun j => - / 2 * (N i j * (a i * a i)) + - / 2 * (N i j * (a j * a j))))
              <= sumn d (fun i => sumn d (fun j => a i * N i j * a j))).
  { apply sumn_le. intros i Hi. apply sumn_le. intros j Hj. destruct (H i j Hi Hj) as [_ P].
    pose proof (Rle_0_sqr (a i + a j)) as S. unfold Rsqr in S.
    assert (0 <= N i j * ((a i + a j) * (a i + a j))) by (apply Rmult_le_pos; lra). lra. }
  assert (B : sumn d (fun i => sumn d (fun j => N i j * (a i * a i))) <= c * sumn d (fun i => a i * a i)).
  { rewrite <- sumn_scal. apply sumn_le. intros i Hi.
    replace (sumn d (fun j => N i j * (a i * a i))) with ((a i * a i) * sumn d (fun j => N i j)).
    - rewrite Rmult_comm. apply Rmult_le_compat_r; [nra|]. apply R, Hi.
    - rewrite <- sumn_scal. apply sumn_ext. intros; ring. }
  assert (C : sumn d (fun i => sumn d (fun j => N i j * (a j * a j))) = sumn d (fun i => sumn d (fun j => N i j * (a i * a i)))).
  { rewrite sumn_swap. apply sumn_ext. intros i Hi. apply sumn_ext. intros j Hj.
    destruct (H i j Hi Hj) as [-> _]. reflexivity. }
  assert (D : sumn d (fun i => sumn d (fun j => - / 2 * (N i j * (a i * a i)) + - / 2 * (N i j * (a j * a j))))
    = - / 2 * sumn d (fun i => sumn d (fun j => N i j * (a i * a i))) + - / 2 * sumn d (fun i => sumn d (fun j => N i j * (a j * a j)))).
  { rewrite <- !sumn_scal, <- sumn_plus. apply sumn_ext. intros i Hi. rewrite sumn_plus, !sumn_scal. reflexivity. }
  lra.
Qed.
