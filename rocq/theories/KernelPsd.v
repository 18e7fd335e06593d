(** The Gaussian kernel, and its Stein kernel, are positive semi-definite. *)
From Coq Require Import Reals List Arith Lia Lra.
From Coquelicot Require Import Coquelicot.
From Verif Require Import ScenarioSpec SsmSpec KernelModel KernelSpec KernelProofs.
Import ListNotations.
Open Scope R_scope.

Lemma vsum_sq n c : vsum n (fun i => vsum n (fun j => c i * c j)) = vsum n c * vsum n c.
Proof.
  transitivity (vsum n (fun i => vsum n c * c i)).
  - apply vsum_ext. intros i Hi. rewrite vsum_scal. ring.
  - apply vsum_scal.
Qed.
Lemma vsum_lim n (f : nat -> nat -> R) (l : nat -> R) : (forall i, (i < n)%nat -> is_lim_seq (f i) (l i)) ->
  is_lim_seq (fun N => vsum n (fun i => f i N)) (vsum n l).
Proof.
  induction n; intros H; cbn; [apply is_lim_seq_const|].
  apply is_lim_seq_plus'; [apply IHn; intros; apply H; lia|apply H; lia].
Qed.
Lemma vsum_sum_n n (f : nat -> nat -> R) N : vsum n (fun i => sum_n (f i) N) = sum_n (fun k => vsum n (fun i => f i k)) N.
Proof.
  induction N.
  - rewrite sum_O. apply vsum_ext. intros. apply sum_O.
  - rewrite sum_Sn, <- IHN. unfold plus. simpl. rewrite <- vsum_plus. apply vsum_ext. intros. rewrite sum_Sn. reflexivity.
Qed.
Lemma sum_n_nonneg (f : nat -> R) N : (forall k, 0 <= f k) -> 0 <= sum_n f N.
Proof.
  intros H. induction N; [rewrite sum_O; apply H|]. rewrite sum_Sn. unfold plus. simpl. specialize (H (S N)). lra.
Qed.
Lemma lim_nonneg (f : nat -> R) (l : R) : (forall N, 0 <= f N) -> is_lim_seq f l -> 0 <= l.
Proof.
  intros H L. assert (LE : Rbar_le 0 l) by (apply (is_lim_seq_le (fun _ => 0) f 0 l H (is_lim_seq_const 0) L)).
  exact LE.
Qed.

(** * exp and its termwise derivatives *)
Lemma exp_sum s : is_lim_seq (sum_n (fun k => / INR (fact k) * s ^ k)) (exp s).
Proof.
  assert (H := is_exp_Reals s). unfold is_pseries, is_series in H.
  apply (is_lim_seq_ext (sum_n (fun k => scal (pow_n s k) (/ INR (fact k))))); [|exact H].
  intros N. apply sum_n_ext. intros k. rewrite pow_n_pow. unfold scal. simpl. unfold mult. simpl. ring.
Qed.
Lemma fact_step k : / INR (fact (S k)) * INR (S k) = / INR (fact k).
Proof.
  change (fact (S k)) with (S k * fact k)%nat. rewrite mult_INR. field. split; [apply INR_fact_neq_0|apply not_0_INR; lia].
Qed.
Lemma exp_sum1 s : is_lim_seq (sum_n (fun k => / INR (fact k) * (INR k * s ^ (k - 1)))) (exp s).
Proof.
  apply is_lim_seq_incr_1. apply (is_lim_seq_ext (sum_n (fun k => / INR (fact k) * s ^ k))); [|apply exp_sum].
  intros N. induction N.
  - rewrite sum_Sn, !sum_O. unfold plus. simpl. field.
  - rewrite sum_Sn, IHN. symmetry. rewrite sum_Sn. f_equal.
    rewrite <- Rmult_assoc, fact_step. replace (S (S N) - 1)%nat with (S N) by lia. reflexivity.
Qed.
Lemma exp_sum2 s : is_lim_seq (sum_n (fun k => / INR (fact k) * (INR k * INR (k - 1) * s ^ (k - 2)))) (exp s).
Proof.
  apply is_lim_seq_incr_1. apply (is_lim_seq_ext (sum_n (fun k => / INR (fact k) * (INR k * s ^ (k - 1))))); [|apply exp_sum1].
  intros N. induction N.
  - rewrite sum_Sn, !sum_O. unfold plus. simpl. field.
  - rewrite sum_Sn, IHN. symmetry. rewrite sum_Sn. f_equal.
    replace (S (S N) - 1)%nat with (S N) by lia. replace (S (S N) - 2)%nat with (S N - 1)%nat by lia.
    rewrite <- !Rmult_assoc, fact_step. reflexivity.
Qed.

Section Psd.
  Variables d n : nat.
  Variable z : nat -> nat -> R.
  Variable c : nat.
  Variable beta : R.
  Hypothesis Hc : (c < d)%nat.
  Let s i j := vsum d (fun l => z i l * z j l).
  Let zc i := z i c * beta.

  (** the form of [(p_i + q_i D)(p_j + q_j D)] applied to the [k]-th power of [s] *)
  Let T k (p q : nat -> R) i j :=
    p i * p j * s i j ^ k + q i * p j * (INR k * s i j ^ (k - 1) * zc j) + p i * q j * (INR k * s i j ^ (k - 1) * zc i)
    + q i * q j * (INR k * INR (k - 1) * s i j ^ (k - 2) * zc i * zc j + INR k * s i j ^ (k - 1) * beta ^ 2).

  Lemma T_step k p q i j :
    T (S k) p q i j = vsum d (fun l => T k (fun i => p i * z i l + q i * (axis c l * beta)) (fun i => q i * z i l) i j).
  Proof.
    unfold T.
    set (S0 := s i j ^ k). set (S1 := INR k * s i j ^ (k - 1)). set (S2 := INR k * INR (k - 1) * s i j ^ (k - 2)).
    transitivity (vsum d (fun l => (p i * p j * S0 + q i * p j * (S1 * zc j) + p i * q j * (S1 * zc i) + q i * q j * (S2 * zc i * zc j + S1 * beta ^ 2)) * (z i l * z j l))
      + vsum d (fun l => (q i * p j * beta * S0 * z j l + p i * q j * beta * S0 * z i l + q i * q j * beta ^ 2 * S0 * axis c l
          + q i * q j * beta * S1 * zc j * z i l + q i * q j * beta * S1 * zc i * z j l) * axis c l)).
    2:{ rewrite <- vsum_plus. apply vsum_ext. intros l Hl. ring. }
    rewrite vsum_scal. rewrite vsum_axis by exact Hc. rewrite axis_self. fold (s i j).
    assert (E0 : s i j ^ S k = S0 * s i j) by (unfold S0; simpl; ring).
    assert (E1 : INR (S k) * s i j ^ (S k - 1) = S0 + S1 * s i j).
    { unfold S0, S1. rewrite S_INR. replace (S k - 1)%nat with k by lia. destruct k; [simpl; ring|].
      replace (S k - 1)%nat with k by lia. simpl. ring. }
    assert (E2 : INR (S k) * INR (S k - 1) * s i j ^ (S k - 2) = S2 * s i j + 2 * S1).
    { unfold S1, S2. replace (S k - 1)%nat with k by lia. replace (S k - 2)%nat with (k - 1)%nat by lia.
      destruct k as [|[|k]]; [simpl; ring|simpl; ring|]. replace (S (S k) - 1)%nat with (S k) by lia.
      replace (S (S k) - 2)%nat with k by lia. rewrite !S_INR. simpl. ring. }
    rewrite E0, E1, E2. unfold zc. ring.
  Qed.

  Lemma T_nonneg k : forall p q, 0 <= vsum n (fun i => vsum n (fun j => T k p q i j)).
  Proof.
    induction k; intros p q.
    - apply (Rle_trans _ (vsum n p * vsum n p)); [apply Rle_0_sqr|]. apply Req_le. rewrite <- vsum_sq.
      apply vsum_ext. intros i Hi. apply vsum_ext. intros j Hj. unfold T. simpl. ring.
    - erewrite vsum_ext.
      2:{ intros i Hi. erewrite vsum_ext. 2:{ intros j Hj. apply T_step. } apply vsum_swap. }
      rewrite vsum_swap. apply vsum_nonneg. intros l Hl. apply IHk.
  Qed.

  Lemma stein_form_nonneg (p q : nat -> R) :
    0 <= vsum n (fun i => vsum n (fun j =>
           exp (s i j) * ((p i + q i * zc j) * (p j + q j * zc i) + q i * q j * beta ^ 2))).
  Proof.
    apply (lim_nonneg (fun N => vsum n (fun i => vsum n (fun j => sum_n (fun k => / INR (fact k) * T k p q i j) N)))).
    - intros N. erewrite vsum_ext. 2:{ intros i Hi. apply vsum_sum_n. } rewrite vsum_sum_n.
      apply sum_n_nonneg. intros k. erewrite vsum_ext. 2:{ intros i Hi. apply vsum_scal. } rewrite vsum_scal.
      apply Rmult_le_pos; [|apply T_nonneg]. apply Rlt_le, Rinv_0_lt_compat, INR_fact_lt_0.
    - apply (vsum_lim n (fun i N => vsum n (fun j => sum_n (fun k => / INR (fact k) * T k p q i j) N))).
      intros i Hi. apply (vsum_lim n (fun j N => sum_n (fun k => / INR (fact k) * T k p q i j) N)). intros j Hj.
      apply (is_lim_seq_ext (fun N =>
        (p i * p j) * sum_n (fun k => / INR (fact k) * s i j ^ k) N
        + (q i * p j * zc j + p i * q j * zc i + q i * q j * beta ^ 2) * sum_n (fun k => / INR (fact k) * (INR k * s i j ^ (k - 1))) N
        + (q i * q j * zc i * zc j) * sum_n (fun k => / INR (fact k) * (INR k * INR (k - 1) * s i j ^ (k - 2))) N)).
      { intros N. induction N.
        - rewrite !sum_O. unfold T. ring.
        - rewrite !sum_Sn. rewrite <- IHN. unfold T. generalize (fact (S N)). intros f. generalize (S N). intros k. unfold plus. simpl. ring. }
      replace (exp (s i j) * ((p i + q i * zc j) * (p j + q j * zc i) + q i * q j * beta ^ 2))
        with ((p i * p j) * exp (s i j) + (q i * p j * zc j + p i * q j * zc i + q i * q j * beta ^ 2) * exp (s i j)
              + (q i * q j * zc i * zc j) * exp (s i j)) by ring.
      apply is_lim_seq_plus'; [apply is_lim_seq_plus'|]; apply is_lim_seq_mult'; try apply is_lim_seq_const;
        [apply exp_sum|apply exp_sum1|apply exp_sum2].
  Qed.
End Psd.

Lemma lsum_seq n f : lsum (seq 0 n) f = vsum n f.
Proof.
  assert (H : forall a b, lsum (a ++ b) f = lsum a f + lsum b f).
  { intros a b. unfold lsum. induction a; cbn [app fold_right]; [ring|]. rewrite IHa. ring. }
  induction n; [reflexivity|]. rewrite seq_S, H, IHn. cbn. ring.
Qed.

Section GaussianPsd.
  Variables d n : nat.
  Variable b : vec.
  Variable x : nat -> vec.
  Hypothesis Hb : forall l, (l < d)%nat -> b l <> 0.
  Let z i l := x i l / b l.
  Let e i := exp (- (1 / 2) * vsum d (fun l => z i l ^ 2)).

  Lemma gaussian_split i j : gaussian_call d b (x i) (x j) = e i * e j * exp (vsum d (fun l => z i l * z j l)).
  Proof.
    unfold gaussian_call, e. rewrite <- !exp_plus. f_equal. rewrite <- Rmult_plus_distr_l, <- vsum_plus.
    replace (vsum d (fun l => z i l * z j l)) with (- (1 / 2) * (-2 * vsum d (fun l => z i l * z j l))) by field.
    rewrite <- Rmult_plus_distr_l. f_equal. rewrite <- vsum_scal, <- vsum_plus. apply vsum_ext. intros l Hl.
    unfold z. field. apply Hb, Hl.
  Qed.

  Lemma gaussian_psd (c : nat -> R) :
    0 <= vsum n (fun i => vsum n (fun j => c i * c j * gaussian_call d b (x i) (x j))).
  Proof.
    assert (Ed : d = 0%nat \/ (0 < d)%nat) by lia. destruct Ed as [Ed|H0].
    - erewrite vsum_ext. 2:{ intros i Hi. apply vsum_ext. intros j Hj.
        instantiate (1 := fun j => c i * c j). unfold gaussian_call. rewrite Ed. cbn [vsum]. rewrite Rmult_0_r, exp_0. ring. }
      rewrite vsum_sq. apply Rle_0_sqr.
    - assert (H := stein_form_nonneg d n z 0 1 H0 (fun i => c i * e i) (fun _ => 0)). cbv beta in H.
      erewrite vsum_ext; [exact H|]. intros i Hi. apply vsum_ext. intros j Hj. rewrite gaussian_split. ring.
  Qed.

  Variable u : nat -> vec.
  Lemma gaussian_stein_coord i j c : (c < d)%nat ->
    gaussian_diag d b (x i) (x j) c + gaussian_grad_x d b (x i) (x j) c * u j c + u i c * gaussian_grad_y d b (x i) (x j) c
      + gaussian_call d b (x i) (x j) * (u i c * u j c)
    = gaussian_call d b (x i) (x j) *
      ((u i c - z i c * / b c + z j c * / b c) * (u j c - z j c * / b c + z i c * / b c) + (/ b c) ^ 2).
  Proof.
    intros Hc. unfold gaussian_diag, gaussian_grad_x, gaussian_grad_y, z. field. apply Hb, Hc.
  Qed.
  Lemma k_0_coords i j :
    k_0 d (gaussian d b) x u i j = vsum d (fun c => gaussian_call d b (x i) (x j) *
      ((u i c - z i c * / b c + z j c * / b c) * (u j c - z j c * / b c + z i c * / b c) + (/ b c) ^ 2)).
  Proof.
    unfold k_0, vdot. cbn [k_call k_grad_x k_grad_y k_diag_sum gaussian]. rewrite <- vsum_scal, <- !vsum_plus.
    apply vsum_ext. intros c Hc. rewrite <- gaussian_stein_coord by exact Hc. reflexivity.
  Qed.
  Lemma gaussian_stein_psd (w : nat -> R) :
    0 <= vsum n (fun i => vsum n (fun j => w i * w j * k_0 d (gaussian d b) x u i j)).
  Proof.
    erewrite vsum_ext.
    2:{ intros i Hi. erewrite vsum_ext. 2:{ intros j Hj. rewrite k_0_coords, <- vsum_scal. reflexivity. }
        apply vsum_swap. }
    rewrite vsum_swap. apply vsum_nonneg. intros c Hc.
    assert (H := stein_form_nonneg d n z c (/ b c) Hc (fun i => w i * e i * (u i c - z i c * / b c)) (fun i => w i * e i)).
    cbv beta in H. erewrite vsum_ext; [exact H|]. intros i Hi. apply vsum_ext. intros j Hj. rewrite gaussian_split. ring.
  Qed.
End GaussianPsd.

Lemma ksd_squared_full d K n vals grads lw : vsum n (ksd_weight lw) <> 0 ->
  ksd_squared d K n vals grads lw (full_batch n)
  = vsum n (fun i => vsum n (fun j => ksd_weight lw i * ksd_weight lw j * k_0 d K vals grads i j)) / (vsum n (ksd_weight lw) ^ 2).
Proof.
  intros H. unfold ksd_squared, full_batch. set (W := vsum n (ksd_weight lw)) in *.
  match goal with |- _ = ?a / ?c => transitivity (/ c * a); [|unfold Rdiv; ring] end.
  rewrite <- vsum_scal. apply vsum_ext. intros i Hi. rewrite !lsum_seq. fold W. rewrite <- vsum_scal. apply vsum_ext. intros j Hj.
  field. exact H.
Qed.
Lemma ksd_weight_pos lw i : 0 < ksd_weight lw i.
Proof. unfold ksd_weight. destruct lw; [apply exp_pos|lra]. Qed.
Lemma vsum_pos n f : (0 < n)%nat -> (forall i, 0 < f i) -> 0 < vsum n f.
Proof.
  intros Hn H. destruct n; [lia|]. cbn. assert (0 <= vsum n f) by (apply vsum_nonneg; intros; apply Rlt_le, H).
  specialize (H n). lra.
Qed.
