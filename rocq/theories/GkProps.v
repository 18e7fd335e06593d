(** Property C88: the g-and-k scenarios. *)
From Coq Require Import Reals List Bool Lra Lia.
From Coquelicot Require Import Coquelicot.
From Verif Require Import XR McmcModel GkModel GkSpec GkProofs.
Import ListNotations.
Open Scope R_scope.

(** C88: every observation is the g-and-k quantile at the normal score of its
    uniform. *)
Theorem C88_quantile :
  forall (ppf : R -> R) (c : R) (x : vec) (us : list R),
  gk_full_data_sample ppf c us x
  = map (fun u => gk_quantile c (x 0%nat) (x 1%nat) (x 2%nat) (x 3%nat) (ppf u)) us.
Proof.
  intros ppf c x us. apply map_ext. intro u. unfold gk_transform, gk_quantile.
  pose proof (skew_tanh (x 2%nat * ppf u)) as S. unfold skew in S. rewrite <- S.
  replace (- x 2%nat * ppf u) with (- (x 2%nat * ppf u)) by ring. unfold Rdiv. ring.
Qed.
Print Assumptions C88_quantile.

Example C88_quantile_example : gk_full_data_sample (fun u => u) (4 / 5) [0; 1] (fun i => match i with 0%nat => 3 | 1%nat => 2 | _ => 0 end) = [3; 5].
Proof.
  rewrite C88_quantile. cbn [map]. unfold gk_quantile. rewrite !Rmult_0_l. unfold Rdiv. rewrite !Rmult_0_l.
  assert (T0 : tanh 0 = 0) by (unfold tanh, sinh, Rdiv; rewrite Ropp_0; ring). rewrite T0.
  f_equal; [ring|]. f_equal. unfold Rpower. rewrite !Rmult_0_l, exp_0. ring.
Qed.

(** C88: with a positive scale, a non-negative kurtosis parameter and the
    default [c] (or any of smaller size), it is strictly increasing in the
    uniform, whatever the skewness: a valid quantile function. *)
Theorem C88_increasing :
  forall (ppf : R -> R) (c : R) (x : vec) (u v : R),
  (forall a b, 0 < a -> a < b -> b < 1 -> ppf a < ppf b) ->
  - (4 / 5) <= c <= 4 / 5 -> 0 < x 1%nat -> 0 <= x 3%nat -> 0 < u -> u < v -> v < 1 ->
  gk_transform ppf c x u < gk_transform ppf c x v.
Proof.
  intros ppf c x u v Hp Hc HB Hk Hu Huv Hv.
  pose proof (C88_quantile ppf c x [u; v]) as E. injection E as E1 E2. rewrite E1, E2.
  apply quantile_increasing; auto.
Qed.
Print Assumptions C88_increasing.

Example C88_increasing_example :
  gk_transform (fun u => u - 1 / 2) (4 / 5) (fun i => match i with 1%nat => 1 | 2%nat => -7 | 3%nat => 1 / 2 | _ => 0 end) (1 / 4)
  < gk_transform (fun u => u - 1 / 2) (4 / 5) (fun i => match i with 1%nat => 1 | 2%nat => -7 | 3%nat => 1 / 2 | _ => 0 end) (3 / 4).
Proof. apply C88_increasing; try lra. intros; lra. Qed.

(** C88: the bound on [c] matters; with [c = 1] the order can be reversed. *)
Theorem C88_large_c_refuted :
  exists (ppf : R -> R) (x : vec) (u v : R),
  (forall a b, 0 < a -> a < b -> b < 1 -> ppf a < ppf b) /\ 0 < x 1%nat /\ 0 <= x 3%nat /\ 0 < u /\ u < v /\ v < 1
  /\ gk_transform ppf 1 x v < gk_transform ppf 1 x u.
Proof.
  exists (fun u => 8 * u - 6), (fun i => match i with 1%nat => 1 | 2%nat => 2 | _ => 0 end), (1 / 4), (5 / 8).
  repeat split; try lra; [intros; lra|].
  unfold gk_transform. replace (8 * (1 / 4) - 6) with (-4) by lra. replace (8 * (5 / 8) - 6) with (-1) by lra.
  unfold Rpower. rewrite !Rmult_0_l, exp_0.
  replace (- (2) * -1) with 2 by lra. replace (- (2) * -4) with 8 by lra.
  assert (E2 : exp 2 <= 9) by (pose proof exp_le_3; replace 2 with (1 + 1) by ring; rewrite exp_plus; pose proof (exp_pos 1); nra).
  assert (E8 : 81 <= exp 8).
  { pose proof (exp_ineq1_le 2). replace 8 with (2 + 2 + (2 + 2)) by ring. rewrite (exp_plus (2 + 2)), (exp_plus 2).
    assert (9 <= exp 2 * exp 2) by nra. nra. }
  set (a := exp 2) in *. set (b := exp 8) in *. assert (0 < a) by apply exp_pos.
  replace (0 + 1 * (1 + 1 * (1 - a) / (1 + a)) * -1 * 1) with (- (2 / (1 + a))) by (field; lra).
  replace (0 + 1 * (1 + 1 * (1 - b) / (1 + b)) * -4 * 1) with (- (8 / (1 + b))) by (field; lra).
  apply Ropp_lt_contravar.
  apply Rle_lt_trans with (8 / 82); [|apply Rlt_le_trans with (2 / 10); [lra|]].
  - unfold Rdiv. apply Rmult_le_compat_l; [lra|]. apply Rinv_le_contravar; lra.
  - unfold Rdiv. apply Rmult_le_compat_l; [lra|]. apply Rinv_le_contravar; lra.
Qed.
Print Assumptions C88_large_c_refuted.

(** C88: the one-parameter scenarios are the same family with exponent [c]. *)
Theorem C88_only_a_partial :
  forall (ppf : R -> R) (c B g k : R) (us : list R) (x : vec),
  gk_only_a_full_data_sample ppf c B g k us x = map (fun u => gk_quantile c (x 0%nat) B g c (ppf u)) us.
Proof.
  intros ppf c B g k us x.
  pose proof (C88_quantile ppf c (fun i => match i with 0%nat => x 0%nat | 1%nat => B | 2%nat => g | _ => c end) us) as E.
  cbn in E. rewrite <- E. reflexivity.
Qed.
Print Assumptions C88_only_a_partial.

(** C88, refuted: the kurtosis attribute [k] of the one-parameter scenarios is
    not used; with the defaults the observations are not those of the family. *)
Theorem C88_only_a_refuted :
  exists (ppf : R -> R) (us : list R) (x : vec),
  gk_only_a_full_data_sample ppf (4 / 5) 1 2 (1 / 2) us x
  <> map (fun u => gk_quantile (4 / 5) (x 0%nat) 1 2 (1 / 2) (ppf u)) us.
Proof.
  exists (fun u => u), [1], (fun _ => 0). rewrite C88_only_a_partial. cbn [map]. intro E. injection E as E.
  unfold gk_quantile in E.
  assert (T : 0 <= tanh (2 * 1 / 2)).
  { replace (2 * 1 / 2) with (2 / 2) by lra. rewrite <- skew_tanh. unfold skew.
    assert (exp (- (2)) < 1) by (rewrite <- exp_0; apply exp_increasing; lra). pose proof (exp_pos (- (2))).
    apply Rmult_le_pos; [lra|]. apply Rlt_le, Rinv_0_lt_compat. lra. }
  set (w := 1 + 4 / 5 * tanh (2 * 1 / 2)) in *. assert (W : 1 <= w) by (unfold w; lra).
  assert (P : Rpower (1 + 1 ^ 2) (1 / 2) < Rpower (1 + 1 ^ 2) (4 / 5)) by (apply Rpower_lt; lra).
  nra.
Qed.
Print Assumptions C88_only_a_refuted.

(** C88: the prior potential is finite, and constant, exactly inside the box. *)
Theorem C88_prior_potential :
  forall (mins maxs : vec) (d : nat) (x : vec),
  (in_box mins maxs d x -> gk_prior_potential mins maxs d x = Fin 1)
  /\ (~ in_box mins maxs d x -> gk_prior_potential mins maxs d x = PInf).
Proof.
  intros mins maxs d x. unfold gk_prior_potential, all_coords.
  destruct (forallb (fun i => Rltb (mins i) (x i)) (seq 0 d)) eqn:E1; destruct (forallb (fun i => Rltb (x i) (maxs i)) (seq 0 d)) eqn:E2.
  - split; [reflexivity|]. intro N. exfalso. apply N. intros i Hi.
    rewrite forallb_forall in E1, E2. split; apply Rltb_true; [apply E1|apply E2]; apply in_seq; lia.
  - split; [|reflexivity]. intro H. exfalso. rewrite <- Bool.not_true_iff_false in E2. apply E2.
    apply forallb_forall. intros i Hi. apply in_seq in Hi. apply Rltb_true. apply H. lia.
  - split; [|reflexivity]. intro H. exfalso. rewrite <- Bool.not_true_iff_false in E1. apply E1.
    apply forallb_forall. intros i Hi. apply in_seq in Hi. apply Rltb_true. apply H. lia.
  - split; [|reflexivity]. intro H. exfalso. rewrite <- Bool.not_true_iff_false in E1. apply E1.
    apply forallb_forall. intros i Hi. apply in_seq in Hi. apply Rltb_true. apply H. lia.
Qed.
Print Assumptions C88_prior_potential.

Example C88_prior_potential_example : gk_prior_potential (fun _ => 0) (fun _ => 10) 4 (fun _ => 3) = Fin 1
  /\ gk_prior_potential (fun _ => 0) (fun _ => 10) 4 (fun i => INR i * 5) = PInf.
Proof.
  split.
  - apply C88_prior_potential. intros i _. lra.
  - apply C88_prior_potential. intro H. specialize (H 3%nat ltac:(lia)). cbn in H. lra.
Qed.

(** C88: draws from uniforms strictly between zero and one lie in the box, and a
    coordinate is below a level exactly when its uniform is below the fraction of
    the interval below that level, so the draw is uniform on the box. *)
Theorem C88_prior_sample_partial :
  forall (mins maxs : vec) (d : nat) (u : vec),
  (forall i, (i < d)%nat -> mins i < maxs i /\ 0 < u i < 1) ->
  in_box mins maxs d (gk_prior_sample mins maxs u)
  /\ forall i y, (i < d)%nat ->
     (gk_prior_sample mins maxs u i <= y <-> u i <= (y - mins i) / (maxs i - mins i)).
Proof.
  intros mins maxs d u H. split.
  - intros i Hi. destruct (H i Hi) as [H1 [H2 H3]]. unfold gk_prior_sample. nra.
  - intros i y Hi. destruct (H i Hi) as [H1 _]. unfold gk_prior_sample. split; intro A.
    + apply Rmult_le_reg_r with (maxs i - mins i); [lra|]. unfold Rdiv. rewrite Rmult_assoc, Rinv_l by lra. lra.
    + apply Rmult_le_compat_r with (r := maxs i - mins i) in A; [|lra].
      unfold Rdiv in A. rewrite Rmult_assoc, Rinv_l in A by lra. lra.
Qed.
Print Assumptions C88_prior_sample_partial.

(** C88, refuted: a zero uniform gives a draw with infinite prior potential. *)
Theorem C88_prior_sample_refuted :
  exists (u : vec), (forall i, 0 <= u i < 1)
  /\ gk_prior_potential (fun _ => 0) (fun _ => 10) 4 (gk_prior_sample (fun _ => 0) (fun _ => 10) u) = PInf.
Proof.
  exists (fun i => match i with 2%nat => 0 | _ => 1 / 2 end). split.
  - intro i. destruct i as [|[|[|i]]]; lra.
  - apply C88_prior_potential. intro H. specialize (H 2%nat ltac:(lia)). unfold gk_prior_sample in H. lra.
Qed.
Print Assumptions C88_prior_sample_refuted.

(** C88: the transformed scenario simulates at the constrained parameters,
    which lie in the box; the two maps undo each other. *)
Theorem C88_transform :
  forall (ppf cdf : R -> R) (c : R) (mins maxs : vec) (d : nat),
  (forall z, 0 < cdf z < 1) -> (forall z, ppf (cdf z) = z) -> (forall p, 0 < p < 1 -> cdf (ppf p) = p) ->
  (forall i, (i < d)%nat -> mins i < maxs i) ->
  forall x, in_box mins maxs d (gk_constrain cdf mins maxs x)
  /\ (forall i, (i < d)%nat -> gk_unconstrain ppf mins maxs (gk_constrain cdf mins maxs x) i = x i)
  /\ (in_box mins maxs d x -> forall i, (i < d)%nat -> gk_constrain cdf mins maxs (gk_unconstrain ppf mins maxs x) i = x i)
  /\ (forall us, gk_transformed_full_data_sample ppf cdf c mins maxs us x
                 = gk_full_data_sample ppf c us (gk_constrain cdf mins maxs x))
  /\ (forall B g k us, gk_only_a_transformed_full_data_sample ppf cdf c mins maxs B g k us x
                 = gk_only_a_full_data_sample ppf c B g k us (gk_constrain cdf mins maxs x)).
Proof.
  intros ppf cdf c mins maxs d Hr Hl Hi Hm x. repeat split.
  - specialize (Hm i H). specialize (Hr (x i)). unfold gk_constrain. nra.
  - specialize (Hm i H). specialize (Hr (x i)). unfold gk_constrain. nra.
  - intros i H. specialize (Hm i H). unfold gk_unconstrain, gk_constrain.
    replace ((mins i + cdf (x i) * (maxs i - mins i) - mins i) / (maxs i - mins i)) with (cdf (x i)) by (field; lra). apply Hl.
  - intros Hx i H. specialize (Hm i H). specialize (Hx i H). unfold gk_unconstrain, gk_constrain.
    rewrite Hi; [field; lra|]. split.
    + apply Rdiv_lt_0_compat; lra.
    + apply Rmult_lt_reg_r with (maxs i - mins i); [lra|]. unfold Rdiv. rewrite Rmult_assoc, Rinv_l by lra. lra.
Qed.
Print Assumptions C88_transform.

Example C88_transform_example : exists (ppf cdf : R -> R),
  (forall z, 0 < cdf z < 1) /\ (forall z, ppf (cdf z) = z) /\ (forall p, 0 < p < 1 -> cdf (ppf p) = p).
Proof.
  exists (fun p => ln (p / (1 - p))), (fun z => exp z / (1 + exp z)). repeat split.
  - pose proof (exp_pos z). apply Rdiv_lt_0_compat; lra.
  - pose proof (exp_pos z). apply Rmult_lt_reg_r with (1 + exp z); [lra|]. unfold Rdiv. rewrite Rmult_assoc, Rinv_l by lra. lra.
  - intro z. pose proof (exp_pos z).
    replace (exp z / (1 + exp z) / (1 - exp z / (1 + exp z))) with (exp z) by (field; lra). apply ln_exp.
  - intros p Hp. assert (0 < p / (1 - p)) by (apply Rdiv_lt_0_compat; lra). rewrite exp_ln by assumption. field. lra.
Qed.

(** C88: the transformed prior potential is minus the log of the uniform
    density carried back through the map, up to a constant. *)
Theorem C88_transformed_potential :
  forall (cdf : R -> R) (mins maxs : vec) (d : nat),
  (forall z, is_derive cdf z (normal_density z)) -> (forall i, (i < d)%nat -> mins i < maxs i) ->
  exists const, forall (x slope : vec),
  (forall i, (i < d)%nat -> is_derive (fun z => gk_constrain cdf mins maxs (fun _ => z) i) (x i) (slope i)) ->
  gk_transformed_prior_potential d x
  = - fold_right Rplus 0 (map (fun i => ln (slope i * / (maxs i - mins i))) (seq 0 d)) + const.
Proof.
  intros cdf mins maxs d Hd Hm. exists (- (INR d * ln (sqrt (2 * PI)))). intros x slope Hs.
  assert (Sp : 0 < sqrt (2 * PI)) by (apply sqrt_lt_R0; pose proof PI_RGT_0; lra).
  assert (E : forall i, (i < d)%nat -> ln (slope i * / (maxs i - mins i)) = - (x i ^ 2 / 2) - ln (sqrt (2 * PI))).
  { intros i Hi. specialize (Hs i Hi). specialize (Hm i Hi).
    assert (D : is_derive (fun z => gk_constrain cdf mins maxs (fun _ => z) i) (x i) (normal_density (x i) * (maxs i - mins i))).
    { unfold gk_constrain. specialize (Hd (x i)). auto_derive; [exists (normal_density (x i)); exact Hd|].
      replace (Derive (fun x0 : R => cdf x0) (x i)) with (normal_density (x i)) by (symmetry; exact (is_derive_unique _ _ _ Hd)). ring. }
    apply is_derive_unique in Hs. apply is_derive_unique in D. rewrite <- Hs, D.
    replace (normal_density (x i) * (maxs i - mins i) * / (maxs i - mins i)) with (normal_density (x i)) by (field; lra).
    unfold normal_density, Rdiv at 1. rewrite ln_mult by (try apply exp_pos; apply Rinv_0_lt_compat; exact Sp).
    rewrite ln_exp, ln_Rinv by exact Sp. ring. }
  unfold gk_transformed_prior_potential.
  assert (G : forall m s, (s + m <= d)%nat ->
    1 / 2 * fold_right Rplus 0 (map (fun i => x i ^ 2) (seq s m))
    = - fold_right Rplus 0 (map (fun i => ln (slope i * / (maxs i - mins i))) (seq s m)) + - (INR m * ln (sqrt (2 * PI)))).
  { induction m as [|m IH]; intros s Hsm; [cbn; ring|].
    cbn [seq map fold_right]. rewrite (E s) by lia. specialize (IH (S s) ltac:(lia)). rewrite S_INR. lra. }
  apply (G d O). lia.
Qed.
Print Assumptions C88_transformed_potential.

Example C88_transformed_potential_example : gk_transformed_prior_potential 3 (fun i => INR i) = 5 / 2.
Proof. unfold gk_transformed_prior_potential. cbn. lra. Qed.
