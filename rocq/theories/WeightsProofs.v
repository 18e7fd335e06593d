(** Proofs about log weights. *)
From Coq Require Import Reals List Arith Lia Lra Psatz.
From Verif Require Import XR WeightsModel WeightsSpec.
Import ListNotations.
Open Scope R_scope.

Lemma Rsum_app a b : Rsum (a ++ b) = Rsum a + Rsum b.
Proof. induction a as [|x a IH]; cbn; [lra|]. rewrite IH. lra. Qed.
Lemma Rsum_scal c l : Rsum (map (fun x => c * x) l) = c * Rsum l.
Proof. induction l as [|x l IH]; cbn; [lra|]. rewrite IH. lra. Qed.
Lemma Rsum_map_plus {A} (f g : A -> R) l : Rsum (map (fun x => f x + g x) l) = Rsum (map f l) + Rsum (map g l).
Proof. induction l as [|x l IH]; cbn; [lra|]. rewrite IH. lra. Qed.
Lemma Rsum_map_scal {A} c (f : A -> R) l : Rsum (map (fun x => c * f x) l) = c * Rsum (map f l).
Proof. induction l as [|x l IH]; cbn; [lra|]. rewrite IH. lra. Qed.
Lemma Rsum_map_ext {A} (f g : A -> R) l : (forall x, In x l -> f x = g x) -> Rsum (map f l) = Rsum (map g l).
Proof.
  induction l as [|x l IH]; intros H; [reflexivity|]. cbn. rewrite (H x) by (left; auto).
  rewrite IH; [reflexivity|]. intros y Hy. apply H. right; auto.
Qed.
Lemma Rsum_const {A} c (l : list A) : Rsum (map (fun _ => c) l) = INR (length l) * c.
Proof. induction l as [|x l IH]; [cbn; lra|]. cbn [map Rsum length]. rewrite IH, S_INR. lra. Qed.
Lemma Rsum_nonneg l : List.Forall (fun x => 0 <= x) l -> 0 <= Rsum l.
Proof. induction 1; cbn; lra. Qed.
Lemma Rsum_pos l : List.Forall (fun x => 0 <= x) l -> List.Exists (fun x => 0 < x) l -> 0 < Rsum l.
Proof.
  intros F E. induction E as [x l H|x l H IH]; inversion F; subst; cbn.
  - pose proof (Rsum_nonneg l H3). lra.
  - specialize (IH H3). lra.
Qed.

Lemma weight_nonneg x : 0 <= weight x.
Proof. destruct x; cbn; try lra. left. apply exp_pos. Qed.
Lemma weights_nonneg l : List.Forall (fun x => 0 <= x) (weights l).
Proof. induction l; cbn; constructor; auto using weight_nonneg. Qed.
Lemma weights_pos l : List.Exists finite l -> List.Exists (fun x => 0 < x) (weights l).
Proof.
  induction 1 as [x l [r ->]|x l _ IH]; cbn; [left|right; auto].
  cbn. apply exp_pos.
Qed.
Lemma weights_sum_pos l : List.Exists finite l -> 0 < Rsum (weights l).
Proof. intros E. apply Rsum_pos; [apply weights_nonneg | apply weights_pos; auto]. Qed.

Lemma xsum_exp l : List.Forall (fun x => x = NInf \/ finite x) l ->
  xsum (map xexp l) = Fin (Rsum (weights l)).
Proof.
  induction 1 as [|x l [->|[r ->]] H IH]; cbn; [reflexivity| |];
    change (fold_right xadd (Fin 0) (map xexp l)) with (xsum (map xexp l)); rewrite IH; reflexivity.
Qed.

Lemma xlog_pos r : 0 < r -> xlog (Fin r) = Fin (ln r).
Proof. intros H. unfold xlog. destruct (Rlt_dec 0 r); [reflexivity|lra]. Qed.

Lemma logsumexp_fin l : lw_ok l -> logsumexp l = Fin (ln (Rsum (weights l))).
Proof.
  intros [F E]. unfold logsumexp. rewrite (xsum_exp l F). apply xlog_pos.
  apply weights_sum_pos; auto.
Qed.

Lemma logsumexp_dead l : List.Forall (fun x => x = NInf) l -> logsumexp l = NInf.
Proof.
  intros F. unfold logsumexp.
  rewrite (xsum_exp l) by (apply Forall_impl with (2 := F); auto).
  replace (Rsum (weights l)) with 0.
  - unfold xlog. destruct (Rlt_dec 0 0); [lra|]. reflexivity.
  - induction F as [|x l -> F IH]; cbn; [reflexivity|]. change (map weight l) with (weights l). lra.
Qed.

Lemma xmul2_inf : xmul (Fin 2) NInf = NInf.
Proof. cbn. destruct (Rlt_dec 0 2); [reflexivity|lra]. Qed.

Lemma double_ok l : lw_ok l -> lw_ok (map (xmul (Fin 2)) l).
Proof.
  intros [F E]. split.
  - apply Forall_map. apply Forall_impl with (2 := F). intros x [->|[r ->]].
    + left. apply xmul2_inf.
    + right. exists (2 * r). reflexivity.
  - apply Exists_exists in E. destruct E as (x & Hx & r & ->).
    apply Exists_exists. exists (Fin (2 * r)). split; [|exists (2 * r); reflexivity].
    apply in_map_iff. exists (Fin r). auto.
Qed.

Lemma double_weights l : List.Forall (fun x => x = NInf \/ finite x) l ->
  weights (map (xmul (Fin 2)) l) = map (fun x => x ^ 2) (weights l).
Proof.
  unfold weights. rewrite !map_map. intros F. apply map_ext_in. intros x Hx.
  rewrite Forall_forall in F. destruct (F x Hx) as [->|[r ->]].
  - rewrite xmul2_inf. cbn. lra.
  - cbn. replace (2 * r) with (r + r) by lra. rewrite exp_plus. lra.
Qed.

Lemma log_ess_fin l : lw_ok l ->
  log_ess_log_weight l
  = Fin (2 * ln (Rsum (weights l)) - ln (Rsum (map (fun x => x ^ 2) (weights l)))).
Proof.
  intros H. unfold log_ess_log_weight. rewrite (logsumexp_fin l H), (logsumexp_fin _ (double_ok l H)).
  rewrite (double_weights l (proj1 H)). cbn. f_equal.
Qed.

Lemma sq_sum_pos w : List.Exists (fun x => 0 < x) w -> 0 < Rsum (map (fun x => x ^ 2) w).
Proof.
  intros E. apply Rsum_pos.
  - apply Forall_forall. intros x Hx. apply in_map_iff in Hx. destruct Hx as (y & <- & _). nra.
  - apply Exists_exists in E. destruct E as (x & Hx & P). apply Exists_exists.
    exists (x ^ 2). split; [apply in_map_iff; exists x; auto | nra].
Qed.

Lemma ess_kish l : lw_ok l -> ess_log_weight l = Fin (kish (weights l)).
Proof.
  intros H. unfold ess_log_weight. rewrite (log_ess_fin l H). cbn [xexp]. f_equal.
  pose proof (weights_sum_pos l (proj2 H)) as P.
  pose proof (sq_sum_pos _ (weights_pos l (proj2 H))) as Q.
  unfold kish. set (S := Rsum (weights l)) in *. set (T := Rsum (map _ _)) in *.
  unfold Rminus, Rdiv. rewrite exp_plus, exp_Ropp, exp_ln by exact Q.
  replace (2 * ln S) with (ln S + ln S) by lra. rewrite exp_plus, exp_ln by exact P. f_equal. ring.
Qed.

(** Cauchy-Schwarz against the constant vector *)
Lemma sum_sq_bound w : (Rsum w) ^ 2 <= INR (length w) * Rsum (map (fun x => x ^ 2) w).
Proof.
  induction w as [|x w IH]; [cbn; lra|].
  cbn [Rsum map length]. rewrite S_INR. set (n := INR (length w)) in *.
  set (S := Rsum w) in *. set (Q := Rsum (map _ w)) in *.
  assert (n >= 0) by (subst n; apply Rle_ge, pos_INR).
  (* (x+S)^2 <= (n+1)(x^2+Q): 2xS <= n x^2 + Q *)
  assert (K : 2 * x * S <= n * x ^ 2 + Q).
  { destruct (Req_dec n 0) as [Z|Z].
    - assert (length w = 0)%nat by (apply INR_eq; exact Z). destruct w; [|discriminate].
      subst S Q n. cbn in *. nra.
    - assert (0 < n) by lra.
      assert (S ^ 2 / n <= Q).
      { apply Rmult_le_reg_r with n; [lra|]. unfold Rdiv. rewrite Rmult_assoc, Rinv_l by lra. nra. }
      assert (0 <= n * (x - S / n) ^ 2) by (apply Rmult_le_pos; [lra|apply pow2_ge_0]).
      replace (n * (x - S / n) ^ 2) with (n * x ^ 2 - 2 * x * S + S ^ 2 / n) in H2 by (field; lra).
      lra. }
  nra.
Qed.

Lemma sum_sq_eq w : (Rsum w) ^ 2 = INR (length w) * Rsum (map (fun x => x ^ 2) w) ->
  forall x y, In x w -> In y w -> x = y.
Proof.
  intros E.
  (* sum of (x - mean)^2 = 0 *)
  destruct (Nat.eq_dec (length w) 0) as [Z|Z].
  { destruct w; [cbn; tauto|discriminate]. }
  set (n := INR (length w)) in *.
  assert (N : n > 0) by (subst n; apply Rlt_gt, lt_0_INR; lia).
  set (m := Rsum w / n).
  assert (V : Rsum (map (fun x => (x - m) ^ 2) w) = 0).
  { assert (V : forall l, Rsum (map (fun x => (x - m) ^ 2) l)
                = Rsum (map (fun x => x ^ 2) l) - 2 * m * Rsum l + INR (length l) * m ^ 2).
    { induction l as [|a l IH]; [cbn; ring|]. cbn [map Rsum length]. rewrite IH, S_INR. ring. }
    rewrite V. fold n. set (Q := Rsum (map (fun x => x ^ 2) w)) in *.
    assert (Q = (Rsum w) ^ 2 / n) by (rewrite E; field; lra).
    rewrite H. unfold m. field. lra. }
  assert (A : forall l, Rsum (map (fun x => (x - m) ^ 2) l) = 0 -> forall x, In x l -> x = m).
  { induction l as [|a l IH]; cbn [map Rsum]; [intros _ x []|]. intros H x [->|Hx].
    - assert (0 <= Rsum (map (fun x => (x - m) ^ 2) l)).
      { apply Rsum_nonneg. apply Forall_forall. intros z Hz. apply in_map_iff in Hz.
        destruct Hz as (y & <- & _). apply pow2_ge_0. }
      pose proof (pow2_ge_0 (x - m)). assert ((x - m) ^ 2 = 0) by lra. nra.
    - apply IH; [|exact Hx].
      assert (0 <= Rsum (map (fun x => (x - m) ^ 2) l)).
      { apply Rsum_nonneg. apply Forall_forall. intros z Hz. apply in_map_iff in Hz.
        destruct Hz as (y & <- & _). apply pow2_ge_0. }
      pose proof (pow2_ge_0 (a - m)). lra. }
  intros x y Hx Hy. rewrite (A w V x Hx), (A w V y Hy). reflexivity.
Qed.

Lemma sum_sq_le w : List.Forall (fun x => 0 <= x) w -> Rsum (map (fun x => x ^ 2) w) <= (Rsum w) ^ 2.
Proof.
  induction 1 as [|x w Hx F IH]; [cbn; lra|].
  cbn [map Rsum]. pose proof (Rsum_nonneg w F). nra.
Qed.

Lemma kish_bounds w : List.Forall (fun x => 0 <= x) w -> List.Exists (fun x => 0 < x) w ->
  1 <= kish w <= INR (length w).
Proof.
  intros F E. pose proof (sq_sum_pos w E) as Q. unfold kish. split.
  - apply Rmult_le_reg_r with (1 := Q). unfold Rdiv. rewrite Rmult_assoc, Rinv_l, Rmult_1_r, Rmult_1_l by lra.
    apply sum_sq_le; auto.
  - apply Rmult_le_reg_r with (1 := Q). unfold Rdiv. rewrite Rmult_assoc, Rinv_l, Rmult_1_r by lra.
    apply sum_sq_bound.
Qed.

Lemma kish_scal c w : c <> 0 -> Rsum (map (fun x => x ^ 2) w) <> 0 ->
  kish (map (fun x => c * x) w) = kish w.
Proof.
  intros Hc Q. unfold kish. rewrite map_map, Rsum_scal.
  rewrite (Rsum_map_ext _ (fun x => c ^ 2 * x ^ 2)) by (intros; ring).
  rewrite Rsum_map_scal. field. split; assumption.
Qed.

Lemma kish_full w : w <> [] -> List.Forall (fun x => 0 <= x) w -> List.Exists (fun x => 0 < x) w ->
  kish w = INR (length w) <-> (forall x y, In x w -> In y w -> x = y).
Proof.
  intros Hne F E. pose proof (sq_sum_pos w E) as Q. unfold kish. split.
  - intros H. apply sum_sq_eq. rewrite <- H. field. lra.
  - intros H. destruct w as [|a w]; [congruence|].
    assert (A : forall l, (forall x, In x l -> x = a) -> Rsum l = INR (length l) * a
                 /\ Rsum (map (fun x => x ^ 2) l) = INR (length l) * a ^ 2).
    { induction l as [|z l IH]; intros Hl; [cbn; lra|].
      destruct IH as [I1 I2]; [intros; apply Hl; right; auto|].
      cbn [map Rsum length]. rewrite I1, I2, S_INR, (Hl z) by (left; auto). lra. }
    destruct (A (a :: w)) as [A1 A2]; [intros; apply H; auto; left; auto|].
    rewrite A2 in Q |- *. rewrite A1.
    assert (a <> 0) by (intros ->; rewrite pow_ne_zero in Q by lia; lra).
    assert (INR (length (a :: w)) <> 0) by (apply not_0_INR; discriminate).
    field. auto.
Qed.
