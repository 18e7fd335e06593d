(** Lemmas about discrete Fourier transforms and the autocorrelation. *)
From Coq Require Import Reals List Arith Lia Lra.
From Coquelicot Require Import Coquelicot.
From Verif Require Import XR AcfModel AcfSpec KernelModel KernelProofs.
Import ListNotations.
Open Scope R_scope.

(** * powers of two *)
Lemma double_until_spec fuel n : forall i, (0 < i)%nat -> (n <= i + fuel)%nat ->
  (n <= double_until fuel n i)%nat /\ (double_until fuel n i = i \/ double_until fuel n i < 2 * n)%nat
  /\ exists j, double_until fuel n i = (2 ^ j * i)%nat.
Proof.
  induction fuel; intros i Hi Hn; cbn [double_until].
  - split; [lia|]. split; [left; reflexivity|]. exists 0%nat. cbn. lia.
  - destruct (Nat.ltb_spec i n).
    + destruct (IHfuel (2 * i)%nat) as (A & B & j & Ej); [lia|lia|]. split; [exact A|]. split.
      * destruct B as [B|B]; [rewrite B; lia|lia].
      * exists (S j). rewrite Ej. cbn [Nat.pow]. lia.
    + split; [assumption|]. split; [left; reflexivity|]. exists 0%nat. cbn. lia.
Qed.
Lemma next_pow_two_spec n : (n <= next_pow_two n)%nat /\ (1 <= next_pow_two n)%nat
  /\ (next_pow_two n = 1 \/ next_pow_two n < 2 * n)%nat /\ exists j, next_pow_two n = (2 ^ j)%nat.
Proof.
  unfold next_pow_two. destruct (double_until_spec n n 1) as (A & B & j & Ej); [lia|lia|].
  split; [exact A|]. split.
  - rewrite Ej. assert (2 ^ j <> 0)%nat by (apply Nat.pow_nonzero; lia). lia.
  - split; [exact B|]. exists j. lia.
Qed.

Ltac cring := match goal with |- @eq _ ?a ?b => change (@eq C a b) end; ring.

(** * complex sums *)
Lemma csum_ext n f g : (forall i, (i < n)%nat -> f i = g i) -> csum n f = csum n g.
Proof. induction n; intros H; cbn; [reflexivity|]. rewrite IHn, H; auto. Qed.
Lemma csum_scal n c f : csum n (fun i => Cmult c (f i)) = Cmult c (csum n f).
Proof. induction n; cbn [csum]; [cring|]. rewrite IHn. cring. Qed.
Lemma csum_plus n f g : csum n (fun i => Cplus (f i) (g i)) = Cplus (csum n f) (csum n g).
Proof. induction n; cbn [csum]; [cring|]. rewrite IHn. cring. Qed.
Lemma csum_0 n : csum n (fun _ => RtoC 0) = RtoC 0.
Proof. induction n; cbn [csum]; [reflexivity|]. rewrite IHn. cring. Qed.
Lemma csum_swap n m f : csum n (fun i => csum m (fun j => f i j)) = csum m (fun j => csum n (fun i => f i j)).
Proof. induction n; cbn [csum]; [symmetry; apply csum_0|]. rewrite IHn, <- csum_plus. reflexivity. Qed.
Lemma csum_R n f : csum n (fun i => RtoC (f i)) = RtoC (vsum n f).
Proof. induction n; cbn [csum vsum]; [reflexivity|]. rewrite IHn, RtoC_plus. reflexivity. Qed.
Lemma csum_conj n f : Cconj (csum n f) = csum n (fun i => Cconj (f i)).
Proof.
  induction n; cbn [csum]; [unfold Cconj, RtoC; cbn [fst snd]; f_equal; ring|]. rewrite <- IHn. unfold Cconj, Cplus. cbn [fst snd]. f_equal. ring.
Qed.
Lemma csum_pick n a f : (a < n)%nat -> csum n (fun i => if Nat.eqb i a then f i else RtoC 0) = f a.
Proof.
  induction n; intros H; [lia|]. cbn [csum]. destruct (Nat.eqb_spec n a) as [->|E].
  - rewrite (csum_ext a _ (fun _ => RtoC 0)), csum_0; [cring|]. intros i Hi. destruct (Nat.eqb_spec i a); [lia|reflexivity].
  - rewrite IHn by lia. cring.
Qed.

Lemma csum_mult n f g : Cmult (csum n f) (csum n g) = csum n (fun a => csum n (fun l => Cmult (f a) (g l))).
Proof.
  rewrite Cmult_comm, <- csum_scal. apply csum_ext. intros a Ha. rewrite csum_scal. cring.
Qed.

(** * roots of unity *)
Lemma cis_plus a b : cis (a + b) = Cmult (cis a) (cis b).
Proof. unfold cis, Cmult. cbn. rewrite cos_plus, sin_plus. f_equal. ring. Qed.
Lemma cis_0 : cis 0 = RtoC 1.
Proof. unfold cis. rewrite cos_0, sin_0. reflexivity. Qed.
Lemma cis_conj a : Cconj (cis a) = cis (- a).
Proof. unfold cis, Cconj. cbn. rewrite cos_neg, sin_neg. reflexivity. Qed.
Lemma cis_period k : cis (2 * PI * INR k) = RtoC 1.
Proof.
  induction k.
  - cbn [INR]. rewrite Rmult_0_r. apply cis_0.
  - rewrite S_INR. replace (2 * PI * (INR k + 1)) with (2 * PI * INR k + 2 * PI) by ring. rewrite cis_plus, IHk.
    unfold cis. rewrite cos_2PI, sin_2PI. change (1, 0) with (RtoC 1). cring.
Qed.
Lemma cis_neq_1 t : 0 < t < 2 * PI -> cis t <> RtoC 1.
Proof.
  intros H E. assert (Ec : cos t = 1) by (apply (f_equal fst) in E; exact E).
  replace t with (2 * (t / 2)) in Ec by field. rewrite cos_2a_sin in Ec.
  assert (0 < sin (t / 2)) by (apply sin_gt_0; lra). nra.
Qed.

Lemma geometric t N : Cmult (Cminus (cis t) (RtoC 1)) (csum N (fun j => cis (t * INR j))) = Cminus (cis (t * INR N)) (RtoC 1).
Proof.
  induction N; cbn [csum].
  - cbn [INR]. rewrite Rmult_0_r, cis_0. cring.
  - rewrite Cmult_plus_distr_l, IHN, S_INR. replace (t * (INR N + 1)) with (t * INR N + t) by ring. rewrite cis_plus. cring.
Qed.

Lemma orthogonal N r : (0 < N)%nat ->
  csum N (fun j => cis (2 * PI * INR r * INR j / INR N)) = if Nat.eqb (r mod N) 0 then RtoC (INR N) else RtoC 0.
Proof.
  intros HN. assert (HN' : 0 < INR N) by (apply lt_0_INR; lia).
  assert (Er : r = (N * (r / N) + r mod N)%nat) by (apply Nat.div_mod; lia).
  assert (Hm : (r mod N < N)%nat) by (apply Nat.mod_upper_bound; lia).
  set (q := (r / N)%nat) in *. set (m := (r mod N)%nat) in *.
  rewrite (csum_ext N _ (fun j => cis (2 * PI * INR m / INR N * INR j))).
  2:{ intros j Hj. rewrite Er, plus_INR, mult_INR.
      replace (2 * PI * (INR N * INR q + INR m) * INR j / INR N) with (2 * PI * INR (q * j) + 2 * PI * INR m / INR N * INR j)
        by (rewrite mult_INR; field; lra).
      rewrite cis_plus, cis_period. cring. }
  destruct (Nat.eqb_spec m 0) as [E|E].
  - rewrite E. cbn [INR]. rewrite (csum_ext N _ (fun _ => RtoC 1)).
    + rewrite csum_R, vsum_const. f_equal. ring.
    + intros j Hj. replace (2 * PI * 0 / INR N * INR j) with 0 by (unfold Rdiv; ring). apply cis_0.
  - assert (Hm0 : 0 < INR m) by (apply lt_0_INR; lia).
    assert (Hmn : INR m < INR N) by (apply lt_INR; lia).
    assert (HPI := PI_RGT_0).
    assert (G := geometric (2 * PI * INR m / INR N) N).
    replace (2 * PI * INR m / INR N * INR N) with (2 * PI * INR m) in G by (field; lra).
    rewrite cis_period in G. set (S := csum N _) in *.
    assert (Hw : Cminus (cis (2 * PI * INR m / INR N)) (RtoC 1) <> RtoC 0).
    { intros H. apply (cis_neq_1 (2 * PI * INR m / INR N)).
      - split; [apply Rdiv_lt_0_compat; nra|]. apply (Rmult_lt_reg_r (INR N)); [lra|].
        replace (2 * PI * INR m / INR N * INR N) with (2 * PI * INR m) by (field; lra). nra.
      - replace (cis _) with (Cplus (Cminus (cis (2 * PI * INR m / INR N)) (RtoC 1)) (RtoC 1)) by cring. rewrite H. cring. }
    set (w := Cminus _ _) in *.
    replace S with (Cmult (Cinv w) (Cmult w S)) by (field; exact Hw). rewrite G. cring.
Qed.

(** * the power spectrum transforms back to the circular correlation *)
Lemma vsum_C_pick N a f : (a < N)%nat -> vsum N (fun i => if Nat.eqb i a then f i else 0) = f a.
Proof.
  intros H. rewrite (vsum_ext N _ (fun i => f i * KernelSpec.axis a i)).
  - apply vsum_axis, H.
  - intros i Hi. unfold KernelSpec.axis. destruct (Nat.eqb i a); ring.
Qed.
Lemma wiener x N m : (0 < N)%nat ->
  ifft (fun k => Cmult (fft x N k) (Cconj (fft x N k))) N m
  = RtoC (vsum N (fun l => nth l x 0 * nth ((l + m) mod N) x 0)).
Proof.
  intros HN. assert (HN' : INR N <> 0) by (apply not_0_INR; lia).
  unfold ifft.
  rewrite (csum_ext N _ (fun k => csum N (fun a => csum N (fun l =>
    Cmult (RtoC (nth a x 0 * nth l x 0)) (cis (2 * PI * INR (l + m + (N - a)) * INR k / INR N)))))).
  2:{ intros k Hk. unfold fft. rewrite csum_conj, csum_mult, Cmult_comm, <- csum_scal.
      apply csum_ext. intros a Ha. rewrite <- csum_scal. apply csum_ext. intros l Hl.
      assert (Ec : Cconj (Cmult (RtoC (nth l x 0)) (cis (- (2 * PI * INR l * INR k / INR N))))
                   = Cmult (RtoC (nth l x 0)) (cis (2 * PI * INR l * INR k / INR N))).
      { transitivity (Cmult (RtoC (nth l x 0)) (Cconj (cis (- (2 * PI * INR l * INR k / INR N))))).
        - unfold Cconj, Cmult, RtoC. cbn [fst snd]. f_equal; ring.
        - rewrite cis_conj, Ropp_involutive. reflexivity. }
      rewrite Ec.
      replace (2 * PI * INR (l + m + (N - a)) * INR k / INR N)
        with (2 * PI * INR k + (2 * PI * INR l * INR k / INR N + (2 * PI * INR m * INR k / INR N + - (2 * PI * INR a * INR k / INR N)))).
      2:{ rewrite !plus_INR, minus_INR by lia. field. exact HN'. }
      rewrite !cis_plus, cis_period, RtoC_mult. cring. }
  rewrite csum_swap.
  rewrite (csum_ext N _ (fun a => csum N (fun l => Cmult (RtoC (INR N)) (if Nat.eqb a ((l + m) mod N) then RtoC (nth a x 0 * nth l x 0) else RtoC 0)))).
  2:{ intros a Ha. rewrite csum_swap. apply csum_ext. intros l Hl. rewrite csum_scal, orthogonal by exact HN.
      assert (Eab : Nat.eqb ((l + m + (N - a)) mod N) 0 = Nat.eqb a ((l + m) mod N)).
      { assert (Hd := Nat.div_mod (l + m) N ltac:(lia)). assert (Hu := Nat.mod_upper_bound (l + m) N ltac:(lia)).
        set (q := ((l + m) / N)%nat) in *. set (t := ((l + m) mod N)%nat) in *.
        assert (E : ((l + m + (N - a)) mod N = (t + (N - a)) mod N)%nat).
        { rewrite Hd. replace (N * q + t + (N - a))%nat with (t + (N - a) + q * N)%nat by lia. apply Nat.mod_add. lia. }
        rewrite E. destruct (Nat.eqb_spec a t) as [->|Hne].
        - replace (t + (N - t))%nat with N by lia. rewrite Nat.mod_same by lia. reflexivity.
        - apply Nat.eqb_neq. intros H0. destruct (Nat.le_gt_cases a t).
          + replace (t + (N - a))%nat with ((t - a) + 1 * N)%nat in H0 by lia. rewrite Nat.mod_add, Nat.mod_small in H0 by lia. lia.
          + rewrite Nat.mod_small in H0 by lia. lia. }
      rewrite Eab. destruct (Nat.eqb a ((l + m) mod N)); cring. }
  rewrite csum_swap, <- csum_scal.
  rewrite (csum_ext N _ (fun l => RtoC (nth l x 0 * nth ((l + m) mod N) x 0))); [apply csum_R|].
  intros l Hl. rewrite csum_scal.
  assert (Hu := Nat.mod_upper_bound (l + m) N ltac:(lia)).
  rewrite (csum_pick N ((l + m) mod N) (fun a => RtoC (nth a x 0 * nth l x 0)) Hu).
  rewrite <- !RtoC_mult. f_equal. field. exact HN'.
Qed.

Lemma raw_acf_circular x N m : (0 < N)%nat ->
  raw_acf x N m = vsum N (fun l => nth l (centred x) 0 * nth ((l + m) mod N) (centred x) 0).
Proof. intros HN. unfold raw_acf. rewrite wiener by exact HN. reflexivity. Qed.

Lemma mean_average x : mean x = average x.
Proof. reflexivity. Qed.
Lemma nth_centred x i : (i < length x)%nat -> nth i (centred x) 0 = dev x i.
Proof.
  intros H. unfold centred. rewrite (nth_indep _ 0 ((fun a => a - mean x) 0)) by (rewrite map_length; exact H).
  rewrite (map_nth (fun a => a - mean x)). reflexivity.
Qed.
Lemma nth_centred_out x i : (length x <= i)%nat -> nth i (centred x) 0 = 0.
Proof. intros H. apply nth_overflow. unfold centred. rewrite map_length. exact H. Qed.

Lemma vsum_cut f n N : (n <= N)%nat -> (forall i, (n <= i < N)%nat -> f i = 0) -> vsum N f = vsum n f.
Proof.
  intros H Hz. induction N; [replace n with 0%nat by lia; reflexivity|].
  destruct (Nat.eq_dec n (S N)) as [->|Hne]; [reflexivity|]. cbn [vsum]. rewrite IHN, Hz; [ring|lia|lia|].
  intros i Hi. apply Hz. lia.
Qed.
Lemma sum_of_vsum n f : sum_of n f = vsum n f.
Proof.
  unfold sum_of. induction n; [reflexivity|]. rewrite seq_S, map_app, fold_right_app. cbn [Nat.add map fold_right vsum].
  rewrite <- IHn. generalize (map f (seq 0 n)). intros l. rewrite Rplus_0_r. generalize (f n). intros b.
  clear. induction l as [|a l IHl]; cbn [fold_right]; [ring|]. rewrite IHl. ring.
Qed.

Lemma raw_acf_lag x N k : (length x + k <= N)%nat -> (0 < N)%nat -> raw_acf x N k = lag_sum x k.
Proof.
  intros Hk HN. rewrite raw_acf_circular by exact HN. unfold lag_sum. rewrite sum_of_vsum.
  rewrite (vsum_cut _ (length x - k) N).
  - apply vsum_ext. intros i Hi. rewrite Nat.mod_small by lia. rewrite !nth_centred by lia. reflexivity.
  - lia.
  - intros i Hi. destruct (Nat.lt_ge_cases i (length x)) as [H|H].
    + rewrite Nat.mod_small by lia. rewrite (nth_centred_out x (i + k)) by lia. ring.
    + rewrite (nth_centred_out x i) by lia. ring.
Qed.

(** * circular shifts *)
Lemma vsum_shift1 f n : vsum (S n) f = f 0%nat + vsum n (fun i => f (S i)).
Proof. induction n; cbn [vsum] in *; [ring|]. rewrite IHn. ring. Qed.
Lemma vsum_cycle1 f N : (0 < N)%nat -> vsum N (fun l => f ((l + 1) mod N)%nat) = vsum N f.
Proof.
  intros HN. destruct N as [|n]; [lia|]. rewrite (vsum_shift1 f). cbn [vsum].
  replace ((n + 1) mod S n)%nat with 0%nat by (replace (n + 1)%nat with (S n) by lia; symmetry; apply Nat.mod_same; lia).
  rewrite (vsum_ext n _ (fun i => f (S i))); [ring|]. intros i Hi. rewrite Nat.mod_small by lia. f_equal. lia.
Qed.
Lemma vsum_cycle f N m : (0 < N)%nat -> vsum N (fun l => f ((l + m) mod N)%nat) = vsum N f.
Proof.
  intros HN. induction m.
  - apply vsum_ext. intros i Hi. rewrite Nat.add_0_r, Nat.mod_small by lia. reflexivity.
  - rewrite <- IHm, <- (vsum_cycle1 (fun l => f ((l + m) mod N)%nat) N HN). apply vsum_ext. intros i Hi. f_equal.
    rewrite Nat.add_mod_idemp_l by lia. f_equal. lia.
Qed.
Lemma raw_acf_bound x N m : (0 < N)%nat -> Rabs (raw_acf x N m) <= raw_acf x N 0.
Proof.
  intros HN. rewrite !raw_acf_circular by exact HN. set (c := fun l => nth l (centred x) 0).
  assert (E0 : vsum N (fun l => c l * c ((l + 0) mod N)%nat) = vsum N (fun l => c l ^ 2)).
  { apply vsum_ext. intros l Hl. rewrite Nat.add_0_r, Nat.mod_small by lia. ring. }
  change (Rabs (vsum N (fun l => c l * c ((l + m) mod N)%nat)) <= vsum N (fun l => c l * c ((l + 0) mod N)%nat)). rewrite E0.
  assert (Ec := vsum_cycle (fun l => c l ^ 2) N m HN). cbv beta in Ec.
  assert (Hp : 0 <= vsum N (fun l => (c l + c ((l + m) mod N)%nat) ^ 2)) by (apply vsum_nonneg; intros; apply pow2_ge_0).
  assert (Hn : 0 <= vsum N (fun l => (c l - c ((l + m) mod N)%nat) ^ 2)) by (apply vsum_nonneg; intros; apply pow2_ge_0).
  rewrite (vsum_ext N _ (fun l => c l ^ 2 + (c ((l + m) mod N)%nat ^ 2 + 2 * (c l * c ((l + m) mod N)%nat)))) in Hp by (intros; ring).
  rewrite (vsum_ext N _ (fun l => c l ^ 2 + (c ((l + m) mod N)%nat ^ 2 + -2 * (c l * c ((l + m) mod N)%nat)))) in Hn by (intros; ring).
  rewrite !vsum_plus, vsum_scal, Ec in Hp, Hn. apply Rabs_le. lra.
Qed.

(** * all lags together *)
Definition lagn (d : nat -> R) (n k : nat) : R := vsum (n - k) (fun i => d i * d (i + k)%nat).
Lemma lag_sum_lagn x k : lag_sum x k = lagn (dev x) (length x) k.
Proof. apply sum_of_vsum. Qed.
Lemma vsum_rev d n : vsum (S n) (fun k => d (n - k)%nat) = vsum (S n) d.
Proof.
  induction n; [reflexivity|]. rewrite vsum_shift1. replace (S n - 0)%nat with (S n) by lia.
  rewrite (vsum_ext (S n) _ (fun k => d (n - k)%nat)) by (intros; f_equal; lia). rewrite IHn.
  change (vsum (S (S n)) d) with (vsum (S n) d + d (S n)). ring.
Qed.
Lemma lagn_S d n k : (k <= n)%nat -> lagn d (S n) k = lagn d n k + d (n - k)%nat * d n.
Proof.
  intros H. unfold lagn. replace (S n - k)%nat with (S (n - k)) by lia. cbn [vsum]. do 3 f_equal. lia.
Qed.
Lemma lagn_all d n : 2 * vsum n (lagn d n) - lagn d n 0 = (vsum n d) ^ 2.
Proof.
  induction n; [unfold lagn; cbn; ring|].
  rewrite (vsum_ext (S n) _ (fun k => lagn d n k + d n * d (n - k)%nat)).
  2:{ intros k Hk. rewrite lagn_S by lia. ring. }
  rewrite vsum_plus, vsum_scal, vsum_rev. cbn [vsum]. rewrite lagn_S, Nat.sub_0_r by lia.
  assert (E : lagn d n n = 0) by (unfold lagn; rewrite Nat.sub_diag; reflexivity). rewrite E. nra.
Qed.
Lemma total_vsum x : total x = vsum (length x) (fun i => nth i x 0).
Proof.
  induction x as [|a x IH]; [reflexivity|]. cbn [total fold_right length] in *. rewrite vsum_shift1. cbn [nth].
  unfold total in IH. rewrite IH. reflexivity.
Qed.
Lemma dev_total x : vsum (length x) (dev x) = 0.
Proof.
  destruct x as [|a x]; [reflexivity|]. set (l := a :: x). unfold dev.
  rewrite (vsum_ext _ _ (fun i => nth i l 0 + (- average l))) by (intros; ring).
  rewrite vsum_plus, vsum_const, <- total_vsum. unfold average. change (fold_right Rplus 0 l) with (total l).
  field. apply not_0_INR. unfold l. cbn. lia.
Qed.
Lemma lag_sums_all x : (1 <= length x)%nat -> lag_sum x 0 + 2 * vsum (length x - 1) (fun k => lag_sum x (S k)) = 0.
Proof.
  intros H. assert (A := lagn_all (dev x) (length x)). rewrite dev_total in A.
  assert (E : vsum (length x) (lagn (dev x) (length x)) = lag_sum x 0 + vsum (length x - 1) (fun k => lag_sum x (S k))).
  { replace (vsum (length x) (lagn (dev x) (length x))) with (vsum (S (length x - 1)) (lag_sum x)).
    - apply vsum_shift1.
    - replace (S (length x - 1)) with (length x) by lia. apply vsum_ext. intros. apply lag_sum_lagn. }
  rewrite E, <- lag_sum_lagn in A. simpl in A. lra.
Qed.
Lemma lag0_nonneg x : 0 <= lag_sum x 0.
Proof.
  rewrite lag_sum_lagn. unfold lagn. apply vsum_nonneg. intros i Hi. rewrite Nat.add_0_r. apply Rle_0_sqr.
Qed.

(** * affine maps *)
Definition affine (c e : R) (x : list R) : list R := map (fun a => c * a + e) x.
Lemma total_affine c e x : total (affine c e x) = c * total x + INR (length x) * e.
Proof.
  induction x as [|a x IH]; [cbn; ring|]. unfold total, affine in *. cbn [map fold_right length]. rewrite IH, S_INR. ring.
Qed.
Lemma centred_affine c e x : centred (affine c e x) = map (Rmult c) (centred x).
Proof.
  destruct x as [|a x]; [reflexivity|]. set (l := a :: x). unfold centred.
  assert (Em : mean (affine c e l) = c * mean l + e).
  { unfold mean. rewrite total_affine. unfold affine. rewrite map_length. field. apply not_0_INR. unfold l. cbn. lia. }
  rewrite Em. unfold affine. rewrite !map_map. apply map_ext. intros; ring.
Qed.
Lemma raw_acf_affine c e x N m : (0 < N)%nat -> raw_acf (affine c e x) N m = c ^ 2 * raw_acf x N m.
Proof.
  intros HN. rewrite !raw_acf_circular by exact HN. rewrite centred_affine, <- vsum_scal. apply vsum_ext. intros l Hl.
  replace 0 with (c * 0) at 1 2 by ring. rewrite !(map_nth (Rmult c)). ring.
Qed.
Lemma fdiv_scale k a b : 0 < k -> fdiv (k * a) (k * b) = fdiv a b.
Proof.
  intros Hk. unfold fdiv. destruct (Req_EM_T (k * b) 0), (Req_EM_T b 0).
  - destruct (Rlt_dec 0 (k * a)), (Rlt_dec 0 a), (Rlt_dec (k * a) 0), (Rlt_dec a 0); try reflexivity; nra.
  - exfalso. nra.
  - exfalso. subst. apply n. ring.
  - f_equal. field. split; lra.
Qed.

(** * the window *)
Lemma cumsum_fin l : forall s, cumsum (Fin s) (map Fin l) = map (fun k => Fin (s + vsum (S k) (fun i => nth i l 0))) (seq 0 (length l)).
Proof.
  induction l as [|a l IH]; intros s; [reflexivity|]. cbn [map cumsum xadd length seq]. f_equal; [cbn; do 2 f_equal; ring|].
  rewrite IH, <- seq_shift, map_map. apply map_ext. intros k. f_equal. rewrite (vsum_shift1 (fun i => nth i (a :: l) 0)). cbn [nth].
  ring.
Qed.
Lemma first_true_spec l : match first_true l with
  | Some i => nth_error l i = Some true /\ forall j, (j < i)%nat -> nth_error l j = Some false
  | None => forall j, (j < length l)%nat -> nth_error l j = Some false
  end.
Proof.
  induction l as [|[|] l IH]; cbn [first_true].
  - intros j Hj. cbn in Hj. lia.
  - split; [reflexivity|intros; lia].
  - destruct (first_true l) as [i|]; cbn [option_map].
    + destruct IH as [A B]. split; [exact A|]. intros [|j] Hj; [reflexivity|]. apply B. lia.
    + intros [|j] Hj; [reflexivity|]. apply IH. cbn in Hj. lia.
Qed.
