From Coq Require Import Reals List Bool Lra Lia.
From Coquelicot Require Import Coquelicot.
From Verif Require Import XR McmcModel GkModel GkSpec.
Import ListNotations.
Open Scope R_scope.

Lemma ln9 : ln 9 < 5 / 2.
Proof.
  assert (G : 9 < exp (5 / 2)).
  { pose proof (exp_ineq1_le (5 / 32)) as H.
    assert (E : exp (5 / 2) = exp (5 / 32) ^ 16).
    { rewrite <- (Rpower_pow 16) by apply exp_pos. unfold Rpower. rewrite ln_exp. f_equal. cbn. lra. }
    rewrite E. apply Rlt_le_trans with ((1 + 5 / 32) ^ 16); [lra|]. apply pow_incr. lra. }
  apply ln_increasing in G; [|lra]. rewrite ln_exp in G. exact G.
Qed.

Lemma key_inequality y : 8 * y < exp y + 10 + 9 * exp (- y).
Proof.
  pose proof ln9 as L. set (v := y - ln 9).
  assert (E1 : exp y = 9 * exp v) by (unfold v; replace y with (ln 9 + (y - ln 9)) at 1 by ring; rewrite exp_plus, exp_ln by lra; reflexivity).
  assert (E2 : 9 * exp (- y) = exp (- v)).
  { unfold v. replace (- (y - ln 9)) with (ln 9 + - y) by ring. rewrite exp_plus, exp_ln by lra. reflexivity. }
  rewrite E1, E2.
  pose proof (exp_ineq1_le v) as V. pose proof (exp_pos v) as P.
  assert (A : exp v + exp (- v) >= 2).
  { rewrite exp_Ropp. assert (exp v * / exp v = 1) by (field; lra). pose proof (Rinv_0_lt_compat _ P) as Q.
    set (p := exp v) in *. set (q := / p) in *. assert (0 <= (p - q) ^ 2) by apply pow2_ge_0.
    assert (4 <= (p + q) ^ 2) by nra. nra. }
  unfold v in *. lra.
Qed.

Definition skew (y : R) : R := (1 - exp (- y)) / (1 + exp (- y)).

Lemma skew_tanh y : skew y = tanh (y / 2).
Proof.
  unfold skew, tanh, sinh, cosh.
  pose proof (exp_pos (y / 2)). pose proof (exp_pos (- (y / 2))).
  assert (E : exp (- y) = exp (- (y / 2)) * exp (- (y / 2))) by (rewrite <- exp_plus; f_equal; lra).
  assert (I : exp (y / 2) * exp (- (y / 2)) = 1) by (rewrite <- exp_plus, <- exp_0; f_equal; lra).
  rewrite E. set (a := exp (y / 2)) in *. set (b := exp (- (y / 2))) in *.
  apply Rmult_eq_reg_r with ((1 + b * b) * ((a + b) / 2)); [|apply Rgt_not_eq; nra].
  field_simplify; [|lra|nra]. nra.
Qed.

Lemma skew_bounds y : -1 < skew y < 1.
Proof.
  unfold skew. pose proof (exp_pos (- y)). split.
  - apply Rmult_lt_reg_r with (1 + exp (- y)); [lra|]. unfold Rdiv. rewrite Rmult_assoc, Rinv_l by lra. lra.
  - apply Rmult_lt_reg_r with (1 + exp (- y)); [lra|]. unfold Rdiv. rewrite Rmult_assoc, Rinv_l by lra. lra.
Qed.

Definition stretch (c g z : R) : R := (1 + c * skew (g * z)) * z.

Lemma stretch_derive c g z :
  is_derive (stretch c g) z (1 + c * ((1 - exp (- (g * z)) ^ 2 + 2 * (g * z) * exp (- (g * z))) / (1 + exp (- (g * z))) ^ 2)).
Proof.
  unfold stretch, skew. pose proof (exp_pos (- (g * z))).
  auto_derive; [lra|]. field. lra.
Qed.

Lemma slope_bound y : - (5 / 4) < (1 - exp (- y) ^ 2 + 2 * y * exp (- y)) / (1 + exp (- y)) ^ 2 < 5 / 4.
Proof.
  pose proof (exp_pos (- y)) as P. pose proof (exp_pos y) as Q.
  assert (I : exp y * exp (- y) = 1) by (rewrite <- exp_plus, <- exp_0; f_equal; lra).
  pose proof (key_inequality y) as K1. pose proof (key_inequality (- y)) as K2. rewrite Ropp_involutive in K2.
  set (e := exp (- y)) in *. set (f := exp y) in *.
  assert (P2 : 0 < (1 + e) ^ 2) by nra.
  assert (B1 : 8 * y * e < 1 + 10 * e + 9 * e ^ 2).
  { apply (Rmult_lt_compat_r e) in K1; [|exact P]. nra. }
  assert (B2 : 8 * - y * e < 9 + 10 * e + e ^ 2).
  { apply (Rmult_lt_compat_r e) in K2; [|exact P]. nra. }
  split; apply Rmult_lt_reg_r with ((1 + e) ^ 2); try exact P2; unfold Rdiv; rewrite ?Rmult_assoc, Rinv_l by lra; nra.
Qed.

Lemma stretch_increasing c g a b : - (4 / 5) <= c <= 4 / 5 -> a < b -> stretch c g a < stretch c g b.
Proof.
  intros Hc Hab.
  destruct (MVT_cor2 (stretch c g)
    (fun z => 1 + c * ((1 - exp (- (g * z)) ^ 2 + 2 * (g * z) * exp (- (g * z))) / (1 + exp (- (g * z))) ^ 2)) a b Hab)
    as [z [E _]].
  { intros z _. apply is_derive_Reals. apply stretch_derive. }
  pose proof (slope_bound (g * z)) as B. set (s := (_ / (1 + exp (- (g * z))) ^ 2)) in *.
  assert (0 < 1 + c * s).
  { destruct (Rtotal_order c 0) as [G|[G|G]]; [|rewrite G; lra|].
    - assert (- c * - s > - c * - (5 / 4)) by (apply Rmult_lt_compat_l; lra). lra.
    - assert (c * (- (5 / 4)) < c * s) by (apply Rmult_lt_compat_l; lra). lra. }
  assert (0 < (1 + c * s) * (b - a)) by (apply Rmult_lt_0_compat; lra). lra.
Qed.

Lemma Rpower_le_1 a b k : 1 <= a <= b -> 0 <= k -> 1 <= Rpower a k <= Rpower b k.
Proof.
  intros H Hk.
  assert (L1 : 0 <= ln a). { rewrite <- ln_1. destruct H as [[H|H] _]; [apply Rlt_le, ln_increasing; lra|rewrite <- H; lra]. }
  assert (L2 : ln a <= ln b). { destruct H as [H1 [H|H]]; [apply Rlt_le, ln_increasing; lra|rewrite H; lra]. }
  assert (Ex : forall x y, x <= y -> exp x <= exp y).
  { intros x y [G|G]; [apply Rlt_le, exp_increasing, G|rewrite G; lra]. }
  unfold Rpower. split; [rewrite <- exp_0|]; apply Ex; [apply Rmult_le_pos; assumption|apply Rmult_le_compat_l; assumption].
Qed.

Lemma quantile_increasing c A B g k a b :
  - (4 / 5) <= c <= 4 / 5 -> 0 < B -> 0 <= k -> a < b -> gk_quantile c A B g k a < gk_quantile c A B g k b.
Proof.
  intros Hc HB Hk Hab.
  assert (F : forall z, gk_quantile c A B g k z = A + B * (stretch c g z * Rpower (1 + z ^ 2) k)).
  { intro z. unfold gk_quantile, stretch. rewrite skew_tanh. ring. }
  rewrite !F. apply Rplus_lt_compat_l, Rmult_lt_compat_l; [exact HB|].
  assert (S0 : stretch c g 0 = 0) by (unfold stretch; ring).
  assert (Sgn : forall z, 0 <= z -> 0 <= stretch c g z).
  { intros z [Hz|Hz]; [|rewrite <- Hz; lra]. rewrite <- S0. apply Rlt_le, stretch_increasing; assumption. }
  assert (Sgn' : forall z, z <= 0 -> stretch c g z <= 0).
  { intros z [Hz|Hz]; [|rewrite Hz; lra]. rewrite <- S0. apply Rlt_le, stretch_increasing; assumption. }
  assert (Pos : forall z, 1 <= Rpower (1 + z ^ 2) k) by (intro z; apply (Rpower_le_1 (1 + z ^ 2) (1 + z ^ 2)); [nra|exact Hk]).
  pose proof (stretch_increasing c g a b Hc Hab) as S.
  destruct (Rle_lt_dec 0 a) as [Ha|Ha]; [|destruct (Rle_lt_dec b 0) as [Hb|Hb]].
  - pose proof (Rpower_le_1 (1 + a ^ 2) (1 + b ^ 2) k ltac:(nra) Hk) as R. specialize (Sgn a Ha). specialize (Pos a). nra.
  - pose proof (Rpower_le_1 (1 + b ^ 2) (1 + a ^ 2) k ltac:(nra) Hk) as R. specialize (Sgn' b Hb). specialize (Pos b). nra.
  - assert (stretch c g a < 0) by (rewrite <- S0; apply stretch_increasing; assumption).
    assert (0 < stretch c g b) by (rewrite <- S0; apply stretch_increasing; assumption).
    pose proof (Pos a). pose proof (Pos b). nra.
Qed.
