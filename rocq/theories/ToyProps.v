(** Properties of the toy scenarios: C96 (potentials), C97 (benchmark model) and
    C99 (axes limits). *)
From Coq Require Import Reals List Arith Lia Lra Bool Permutation.
From Coquelicot Require Import Coquelicot.
From Verif Require Import XR McmcModel ToyModel ToySpec.
Import ListNotations.
Open Scope R_scope.

(** ** Sums *)
Lemma csum_S d f : csum (S d) f = csum d f + f d.
Proof.
  unfold csum. rewrite seq_S, map_app, fold_right_app. cbn. rewrite Rplus_0_r.
  generalize (map f (seq 0 d)) as l. induction l as [|a l IH]; cbn; [ring|]. rewrite IH. ring.
Qed.
Lemma csum_nonneg d f : (forall i, (i < d)%nat -> 0 <= f i) -> 0 <= csum d f.
Proof. induction d as [|d IH]; intros H; [cbn; lra|]. rewrite csum_S. specialize (H d (Nat.lt_succ_diag_r d)) as H'. assert (0 <= csum d f) by (apply IH; intros; apply H; lia). lra. Qed.
Lemma csum_zero d f : (forall i, (i < d)%nat -> 0 <= f i) -> (csum d f = 0 <-> forall i, (i < d)%nat -> f i = 0).
Proof.
  induction d as [|d IH]; intros H; [split; [lia|reflexivity]|]. rewrite csum_S.
  assert (A : 0 <= csum d f) by (apply csum_nonneg; intros; apply H; lia). assert (B := H d (Nat.lt_succ_diag_r d)).
  split; intros E.
  - intros i Hi. destruct (Nat.eq_dec i d) as [->|]; [lra|]. apply IH; [intros; apply H; lia|lra|lia].
  - rewrite (E d) by lia. assert (csum d f = 0) by (apply IH; intros; [apply H|apply E]; lia). lra.
Qed.
Lemma csum_lin d a f b g : csum d (fun i => a * f i + b * g i) = a * csum d f + b * csum d g.
Proof. induction d as [|d IH]; [cbn; ring|]. rewrite !csum_S, IH. ring. Qed.
Lemma csum_const d a : csum d (fun _ => a) = INR d * a.
Proof. induction d as [|d IH]; [cbn; ring|]. rewrite csum_S, IH, S_INR. ring. Qed.
Lemma csum_ext d f g : (forall i, (i < d)%nat -> f i = g i) -> csum d f = csum d g.
Proof. induction d as [|d IH]; intros H; [reflexivity|]. rewrite !csum_S, IH, H by (intros; try apply H; lia). reflexivity. Qed.

(** * C96 *)
(** The double well: least value -d/4, reached exactly at the corners of the
    cube; the gradient vanishes exactly at points with coordinates -1, 0, 1;
    signs and the order of the coordinates do not matter. *)
Theorem C96_double_well : forall d x,
  - INR d / 4 <= double_well d x
  /\ (double_well d x = - INR d / 4 <-> forall i, (i < d)%nat -> x i = 1 \/ x i = -1)
  /\ (forall i, (i < d)%nat ->
       is_derive (fun v => double_well d (fun j => if Nat.eq_dec j i then v else x j)) (x i) (x i * (x i - 1) * (x i + 1)))
  /\ (forall y, (forall i, (i < d)%nat -> Rabs (y i) = Rabs (x i)) -> double_well d y = double_well d x)
  /\ (forall s, Permutation (map s (seq 0 d)) (seq 0 d) -> double_well d (fun i => x (s i)) = double_well d x).
Proof.
  intros d x.
  assert (E : forall y, double_well d y + INR d / 4 = csum d (fun i => (y i ^ 2 - 1) ^ 2 / 4)).
  { intros y. unfold double_well. rewrite (csum_ext d (fun i => (y i ^ 2 - 1) ^ 2 / 4) (fun i => 1 * (1 / 4 * y i ^ 4 + (- 1 / 2) * y i ^ 2) + 1 * (1 / 4))) by (intros; field).
    rewrite (csum_lin d 1 (fun i => 1 / 4 * y i ^ 4 + - 1 / 2 * y i ^ 2) 1 (fun _ => 1 / 4)), csum_const.
    rewrite (csum_lin d (1 / 4) (fun i => y i ^ 4) (- 1 / 2) (fun i => y i ^ 2)). field. }
  assert (P : forall (y : vec) i, 0 <= (y i ^ 2 - 1) ^ 2 / 4) by (intros; assert (Q := pow2_ge_0 (y i ^ 2 - 1)); lra).
  split.
  { specialize (E x). assert (0 <= csum d (fun i => (x i ^ 2 - 1) ^ 2 / 4)) by (apply csum_nonneg; auto). lra. }
  split.
  { assert (Z := csum_zero d (fun i => (x i ^ 2 - 1) ^ 2 / 4) (fun i _ => P x i)). cbv beta in Z. specialize (E x). split; intros H.
    - assert (H0 : csum d (fun i => (x i ^ 2 - 1) ^ 2 / 4) = 0) by lra. intros i Hi. apply (proj1 Z H0) in Hi.
      assert (Q : (x i - 1) * (x i + 1) = 0).
      { assert (0 <= ((x i - 1) * (x i + 1)) ^ 2) by apply pow2_ge_0.
        replace (x i ^ 2 - 1) with ((x i - 1) * (x i + 1)) in Hi by ring.
        assert (((x i - 1) * (x i + 1)) ^ 2 = 0) by lra. apply Rsqr_0_uniq. unfold Rsqr. lra. }
      apply Rmult_integral in Q. destruct Q; [left|right]; lra.
    - assert (H0 : csum d (fun i => (x i ^ 2 - 1) ^ 2 / 4) = 0).
      { apply Z. intros i Hi. destruct (H i Hi) as [-> | ->]; lra. }
      lra. }
  split.
  { intros i Hi. unfold double_well.
    assert (D : forall k e, (0 < k)%nat -> is_derive (fun v => csum e (fun j => (if Nat.eq_dec j i then v else x j) ^ k)) (x i)
       (if lt_dec i e then INR k * x i ^ pred k else 0)).
    { intros k e Hk. induction e as [|e IH].
      - cbn. destruct (lt_dec i 0) as [|]; [lia|]. apply is_derive_ext with (fun _ => 0); [reflexivity|]. apply @is_derive_const.
      - apply is_derive_ext with (fun v => plus (csum e (fun j => (if Nat.eq_dec j i then v else x j) ^ k)) ((if Nat.eq_dec e i then v else x e) ^ k)).
        { intros v. rewrite csum_S. reflexivity. }
        destruct (Nat.eq_dec e i) as [->|Ne].
        + destruct (lt_dec i i) as [|_]; [lia|]. destruct (lt_dec i (S i)) as [_|]; [|lia].
          replace (INR k * x i ^ pred k) with (plus 0 (INR k * x i ^ pred k)) by (unfold plus; cbn; ring).
          apply @is_derive_plus; [exact IH|]. auto_derive; [trivial|ring].
        + assert (Q := is_derive_plus _ (fun _ => x e ^ k) _ _ _ IH (is_derive_const (x e ^ k) (x i))).
          revert Q. destruct (lt_dec i e), (lt_dec i (S e)); try lia; intros Q.
          * replace (INR k * x i ^ pred k) with (plus (INR k * x i ^ pred k) 0) by (unfold plus; cbn; ring). exact Q.
          * replace 0 with (plus 0 0) by (unfold plus; cbn; ring). exact Q. }
    assert (D4 := D 4%nat d ltac:(lia)). assert (D2 := D 2%nat d ltac:(lia)).
    destruct (lt_dec i d) as [_|]; [|contradiction].
    assert (F4 := is_derive_scal_l _ _ _ (1 / 4) D4). assert (F2 := is_derive_scal_l _ _ _ (1 / 2) D2).
    assert (M := is_derive_minus _ _ _ _ _ F4 F2).
    eapply is_derive_ext; [|replace (x i * (x i - 1) * (x i + 1)) with (minus (scal (INR 4 * x i ^ pred 4) (1 / 4)) (scal (INR 2 * x i ^ pred 2) (1 / 2))); [exact M|]].
    - intros v. unfold minus, plus, opp, scal. cbn. unfold mult. cbn. field.
    - unfold minus, plus, opp, scal. cbn. unfold mult. cbn. field. }
  split.
  { intros y Hy. unfold double_well. f_equal; f_equal; apply csum_ext; intros i Hi; specialize (Hy i Hi).
    - replace (y i ^ 4) with ((y i ^ 2) ^ 2) by ring. replace (x i ^ 4) with ((x i ^ 2) ^ 2) by ring.
      rewrite <- (pow2_abs (y i)), <- (pow2_abs (x i)), Hy. reflexivity.
    - rewrite <- (pow2_abs (y i)), <- (pow2_abs (x i)), Hy. reflexivity. }
  intros s Hs.
  assert (Q : forall f, csum d (fun i => f (s i)) = csum d f).
  { intros f. unfold csum. rewrite <- (map_map s f). generalize (Permutation_map f Hs). generalize (map f (map s (seq 0 d))) (map f (seq 0 d)).
    induction 1; cbn; lra. }
  unfold double_well. rewrite (Q (fun i => x i ^ 4)), (Q (fun i => x i ^ 2)). reflexivity.
Qed.
Print Assumptions C96_double_well.

(** Rastrigin with a non-negative amplitude: between the paraboloid and the
    paraboloid plus 2 a d; zero exactly at the origin, which is the only
    minimum; on integer points it is the paraboloid. *)
Theorem C96_rastrigin : forall d a x, 0 <= a ->
  csum d (fun i => x i ^ 2) <= rastrigin d a x <= csum d (fun i => x i ^ 2) + 2 * a * INR d
  /\ (rastrigin d a x = 0 <-> forall i, (i < d)%nat -> x i = 0)
  /\ ((forall i, (i < d)%nat -> exists z : Z, x i = IZR z) -> rastrigin d a x = csum d (fun i => x i ^ 2)).
Proof.
  intros d a x Ha.
  assert (E : rastrigin d a x = csum d (fun i => x i ^ 2 + a * (1 - cos (2 * PI * x i)))).
  { unfold rastrigin. rewrite (csum_ext d (fun i => x i ^ 2 + a * (1 - cos (2 * PI * x i))) (fun i => 1 * (x i ^ 2 - a * cos (2 * PI * x i)) + 1 * a)) by (intros; ring).
    rewrite csum_lin, csum_const. ring. }
  assert (B : forall i, 0 <= a * (1 - cos (2 * PI * x i)) <= 2 * a).
  { intros i. assert (C := COS_bound (2 * PI * x i)). nra. }
  split.
  { rewrite E. clear E. induction d as [|d IH]; [cbn; lra|]. rewrite !csum_S, S_INR. specialize (B d). lra. }
  split.
  { rewrite E, csum_zero. 2:{ intros i _. specialize (B i). assert (Q := pow2_ge_0 (x i)). lra. }
    split; intros H i Hi; specialize (H i Hi).
    - specialize (B i). assert (Q := pow2_ge_0 (x i)). assert (x i ^ 2 = 0) by lra. apply Rsqr_0_uniq. unfold Rsqr. lra.
    - rewrite H, Rmult_0_r, cos_0. ring. }
  intros H. rewrite E. apply csum_ext. intros i Hi. destruct (H i Hi) as [z ->].
  replace (cos (2 * PI * IZR z)) with 1; [ring|]. symmetry.
  replace (2 * PI * IZR z) with (0 + 2 * (IZR z * PI)) by ring.
  assert (S0 : sin (IZR z * PI) = 0) by (apply sin_eq_0_1; exists z; reflexivity).
  rewrite Rplus_0_l, cos_2a_sin, S0. ring.
Qed.
Print Assumptions C96_rastrigin.

(** The banana is the standard normal potential seen through a bijection of the
    plane with constant Jacobian [sqrt l]. *)
Theorem C96_banana : forall c l, 0 < l ->
  let phi u := (sqrt l * fst u, snd u - c * l * (fst u ^ 2 - 1)) in
  let psi x := (fst x / sqrt l, snd x + c * fst x ^ 2 - l * c) in
  (forall u, psi (phi u) = u) /\ (forall x, phi (psi x) = x)
  /\ (forall u, banana c l (fst (phi u)) (snd (phi u)) = 1 / 2 * (fst u ^ 2 + snd u ^ 2))
  /\ (forall u v, is_derive (fun u => fst (phi (u, v))) u (sqrt l) /\ is_derive (fun u => fst (phi (v, u))) u 0
                  /\ is_derive (fun v => snd (phi (u, v))) v 1).
Proof.
  intros c l Hl phi psi. assert (S0 : 0 < sqrt l) by (apply sqrt_lt_R0; exact Hl).
  assert (Q : sqrt l ^ 2 = l) by (apply pow2_sqrt; lra).
  split; [|split; [|split]].
  - intros [u v]. unfold phi, psi. cbn [fst snd]. f_equal; [field; lra|]. rewrite Rpow_mult_distr, Q. ring.
  - intros [x y]. unfold phi, psi. cbn [fst snd]. f_equal; [field; lra|].
    replace ((x / sqrt l) ^ 2) with (x ^ 2 / l) by (rewrite <- Q at 1; field; lra). field. lra.
  - intros [u v]. unfold phi, banana. cbn [fst snd]. rewrite Rpow_mult_distr, Q. field. lra.
  - intros u v. unfold phi. cbn [fst snd]. split; [|split]; auto_derive; trivial; ring.
Qed.
Print Assumptions C96_banana.

(** Neal's funnel: the second coordinate N(0, 3), the first one given the
    second N(0, exp(x1/2)).  The potential lacks the logarithm of the
    conditional standard deviation, so the law of the second coordinate is
    N(3/4, 3) instead. *)
Theorem C96_funnel_partial : exists K, 0 < K /\ forall x0 x1,
  exp (- neal_funnel x0 x1) = K * normal_density 0 (exp (x1 / 2)) x0 * normal_density (3 / 4) 3 x1.
Proof.
  assert (P := PI_RGT_0). assert (H6 : 0 < 2 * PI * 3) by lra.
  exists (sqrt (2 * PI) * sqrt (2 * PI * 3) * exp (3 / 32)).
  assert (S1 : 0 < sqrt (2 * PI)) by (apply sqrt_lt_R0; lra). assert (S2 : 0 < sqrt (2 * PI * 3)) by (apply sqrt_lt_R0; lra).
  split; [repeat apply Rmult_lt_0_compat; auto; apply exp_pos|].
  intros x0 x1. unfold normal_density.
  assert (Es : sqrt (2 * PI * exp (x1 / 2)) = sqrt (2 * PI) * exp (x1 / 4)).
  { rewrite sqrt_mult by (try (apply Rlt_le, exp_pos); lra). f_equal.
    apply sqrt_lem_1; [apply Rlt_le, exp_pos|apply Rlt_le, exp_pos|]. rewrite <- exp_plus. f_equal. field. }
  rewrite Es. assert (E4 := exp_pos (x1 / 4)).
  assert (Ei : exp (- (x0 - 0) ^ 2 / (2 * exp (x1 / 2))) = exp (- (1 / 2 * (x0 ^ 2 * exp (- x1 / 2))))).
  { f_equal. replace (- x1 / 2) with (- (x1 / 2)) by field. rewrite exp_Ropp. field. apply Rgt_not_eq, exp_pos. }
  rewrite Ei. transitivity (exp (3 / 32) * exp (- (x1 / 4)) * exp (- (1 / 2 * (x0 ^ 2 * exp (- x1 / 2)))) * exp (- (x1 - 3 / 4) ^ 2 / (2 * 3))).
  - rewrite <- !exp_plus. f_equal. unfold neal_funnel. field.
  - rewrite (exp_Ropp (x1 / 4)). field. lra.
Qed.
Print Assumptions C96_funnel_partial.

Theorem C96_funnel_refuted : ~ exists K, forall x0 x1,
  exp (- neal_funnel x0 x1) = K * normal_density 0 (exp (x1 / 2)) x0 * normal_density 0 3 x1.
Proof.
  intros [K H]. destruct C96_funnel_partial as (K' & HK & H').
  assert (P := PI_RGT_0).
  assert (N : forall m v x, 0 < v -> 0 < normal_density m v x).
  { intros m v x Hv. unfold normal_density. apply Rdiv_lt_0_compat; [apply exp_pos|]. apply sqrt_lt_R0. nra. }
  assert (E : forall x1, K * normal_density 0 3 x1 = K' * normal_density (3 / 4) 3 x1).
  { intros x1. apply (Rmult_eq_reg_r (normal_density 0 (exp (x1 / 2)) 0)); [|apply Rgt_not_eq, N, exp_pos].
    specialize (H 0 x1). specialize (H' 0 x1). lra. }
  assert (E0 := E 0). assert (E1 := E (3 / 2)).
  assert (S6 : normal_density (3 / 4) 3 (3 / 2) = normal_density (3 / 4) 3 0) by (unfold normal_density; f_equal; f_equal; field).
  assert (L : normal_density 0 3 (3 / 2) < normal_density 0 3 0).
  { unfold normal_density, Rdiv at 1 3. apply Rmult_lt_compat_r; [apply Rinv_0_lt_compat, sqrt_lt_R0; lra|]. apply exp_increasing. lra. }
  rewrite S6, <- E0 in E1. assert (KK : K <> 0).
  { intros ->. assert (0 < K' * normal_density (3 / 4) 3 0) by (apply Rmult_lt_0_compat; [exact HK|apply N; lra]). lra. }
  apply Rmult_eq_reg_l in E1; [lra|exact KK].
Qed.
Print Assumptions C96_funnel_refuted.

Example C96_example : double_well 2 (fun i => if Nat.eqb i 0 then 1 else -1) = - 1 / 2
  /\ rastrigin 2 1 (fun _ => 1 / 2) = 9 / 2 /\ banana (3 / 100) 100 0 3 = 0 /\ neal_funnel 2 0 = 2.
Proof.
  split; [unfold double_well, csum; cbn; field|]. split.
  { unfold rastrigin, csum. cbn [map seq fold_right INR]. replace (2 * PI * (1 / 2)) with PI by field. rewrite cos_PI. field. }
  split; [unfold banana; field|]. unfold neal_funnel. replace (- 0 / 2) with 0 by field. rewrite exp_0. field.
Qed.

(** * C97 *)
(** The potentials of the one-dimensional benchmark are those of its samplers'
    laws up to the logarithm of the standard deviation, which is left out: with
    a standard deviation of one they are exact. *)
Lemma std_gp sd m x : 0 < sd -> exp (- std_gaussian_potential ((x - m) / sd)) = sd * normal_density m (sd ^ 2) x.
Proof.
  intros Hs. unfold std_gaussian_potential, normal_density. assert (P := PI_RGT_0).
  replace (- (1 / 2 * (((x - m) / sd - 0) ^ 2 * 1) + (1 * ln (2 * PI) - ln 1) / 2))
    with (- (x - m) ^ 2 / (2 * sd ^ 2) + - (/ 2 * ln (2 * PI))) by (rewrite ln_1; field; lra).
  rewrite exp_plus, exp_Ropp. rewrite (sqrt_mult (2 * PI)), sqrt_pow2 by (try apply pow2_ge_0; lra).
  change (exp (/ 2 * ln (2 * PI))) with (Rpower (2 * PI) (/ 2)). rewrite Rpower_sqrt by lra.
  assert (0 < sqrt (2 * PI)) by (apply sqrt_lt_R0; lra). field. lra.
Qed.
Theorem C97_potentials_partial : forall sd x t x' t' y, 0 < sd ->
  exp (- n1_initial_potential sd x) = sd * normal_density 0 (sd ^ 2) x
  /\ exp (- n1_transition_potential sd x t x' t') = sd * normal_density (n1_transition_mean x t) (sd ^ 2) x'
  /\ exp (- n1_likelihood_potential sd x y t) = sd * normal_density (x ^ 2 / 20) (sd ^ 2) y
  /\ (forall z, exp (- n1_initial_potential sd (n1_initial_sample sd z)) = normal_density 0 1 z
      /\ exp (- n1_transition_potential sd x t (n1_transition_sample sd x t t' z) t') = normal_density 0 1 z
      /\ exp (- n1_likelihood_potential sd x (n1_likelihood_sample sd x t z) t) = normal_density 0 1 z).
Proof.
  intros sd x t x' t' y Hs.
  split. { unfold n1_initial_potential. rewrite <- (std_gp sd 0 x Hs). rewrite Rminus_0_r. reflexivity. }
  split; [apply std_gp, Hs|]. split; [apply std_gp, Hs|].
  assert (G : forall z, exp (- std_gaussian_potential z) = normal_density 0 1 z).
  { intros z. assert (E := std_gp 1 0 z ltac:(lra)). replace ((z - 0) / 1) with z in E by field. rewrite E, pow1. ring. }
  intros z. unfold n1_initial_potential, n1_transition_potential, n1_likelihood_potential, n1_initial_sample, n1_transition_sample, n1_likelihood_sample.
  rewrite <- (G z). repeat split; do 3 f_equal; field; lra.
Qed.
Print Assumptions C97_potentials_partial.

(** The default standard deviations of the initial and transition laws are not
    one, so these potentials are not minus the logarithm of the densities. *)
Theorem C97_normalised_refuted : exists x t x' t',
  n1_initial_potential (sqrt 2) x <> - ln (normal_density 0 2 x)
  /\ n1_transition_potential (sqrt 10) x t x' t' <> - ln (normal_density (n1_transition_mean x t) 10 x').
Proof.
  exists 0, 0, 0, 0. assert (P := PI_RGT_0).
  assert (N : forall m v x, 0 < v -> 0 < normal_density m v x).
  { intros m v x Hv. unfold normal_density. apply Rdiv_lt_0_compat; [apply exp_pos|]. apply sqrt_lt_R0. nra. }
  assert (K : forall v m x p, 1 < v -> exp (- p) = sqrt v * normal_density m (sqrt v ^ 2) x -> p <> - ln (normal_density m v x)).
  { intros v m x p Hv E F. rewrite pow2_sqrt in E by lra. rewrite F, Ropp_involutive, exp_ln in E by (apply N; lra).
    assert (1 < sqrt v) by (rewrite <- sqrt_1; apply sqrt_lt_1; lra). specialize (N m v x ltac:(lra)). nra. }
  assert (S2 : 0 < sqrt 2) by (apply sqrt_lt_R0; lra). assert (S10 : 0 < sqrt 10) by (apply sqrt_lt_R0; lra).
  destruct (C97_potentials_partial (sqrt 2) 0 0 0 0 0 S2) as (A & _). destruct (C97_potentials_partial (sqrt 10) 0 0 0 0 0 S10) as (_ & B & _).
  split; apply K; auto; lra.
Qed.
Print Assumptions C97_normalised_refuted.

(** Paths stay bounded by their noise: with draws of at most [b] in absolute
    value every state is within 41 + 2 b sd (or as far as the start). *)
Lemma n1_mean_bound x t : Rabs (n1_transition_mean x t) <= Rabs x / 2 + 41 / 2.
Proof.
  unfold n1_transition_mean. eapply Rle_trans; [apply Rabs_triang|].
  assert (A : Rabs (1 / 2 * x + 25 * x / (1 + x ^ 2)) <= Rabs x / 2 + 25 / 2).
  { eapply Rle_trans; [apply Rabs_triang|]. rewrite Rabs_mult, (Rabs_right (1 / 2)) by lra.
    assert (B : Rabs (25 * x / (1 + x ^ 2)) <= 25 / 2).
    { assert (Q := pow2_ge_0 x). unfold Rdiv. rewrite !Rabs_mult, (Rabs_right 25), (Rabs_right (/ _)) by (try (apply Rle_ge, Rlt_le, Rinv_0_lt_compat); lra).
      apply (Rmult_le_reg_r (1 + x ^ 2)); [lra|]. rewrite Rmult_assoc, Rinv_l, Rmult_1_r by lra.
      rewrite <- (pow2_abs x) in *. assert (R := pow2_ge_0 (Rabs x - 1)). nra. }
    lra. }
  assert (C : Rabs (8 * cos (12 / 10 * t)) <= 8).
  { rewrite Rabs_mult, Rabs_right by lra. assert (D := COS_bound (12 / 10 * t)).
    assert (Rabs (cos (12 / 10 * t)) <= 1) by (apply Rabs_le; lra). lra. }
  lra.
Qed.
Theorem C97_bounded : forall isd tsd t z b j, 0 <= tsd -> 0 <= b -> (forall i, (1 <= i)%nat -> Rabs (z i) <= b) ->
  Rabs (n1_path isd tsd t z j) <= (41 + 2 * b * tsd) + (1 / 2) ^ j * Rabs (n1_path isd tsd t z 0).
Proof.
  intros isd tsd t z b j Hs Hb Hz. induction j as [|j IH].
  { cbn [pow]. assert (0 <= b * tsd) by (apply Rmult_le_pos; assumption). assert (Q := Rabs_pos (n1_path isd tsd t z 0)). lra. }
  cbn [n1_path]. unfold n1_transition_sample at 1. eapply Rle_trans; [apply Rabs_triang|].
  assert (A := n1_mean_bound (n1_path isd tsd t z j) (t j)).
  assert (B : Rabs (z (S j) * tsd) <= b * tsd).
  { rewrite Rabs_mult, (Rabs_right tsd) by lra. apply Rmult_le_compat_r; [exact Hs|apply Hz; lia]. }
  cbn [pow]. set (r := (1 / 2) ^ j) in *. cbn [n1_path] in *. lra.
Qed.
Print Assumptions C97_bounded.

(** The observations do not see the sign of the state, and the mean of the
    transition is odd apart from its periodic forcing. *)
Theorem C97_symmetry : forall sd x y t,
  n1_likelihood_potential sd (- x) y t = n1_likelihood_potential sd x y t
  /\ n1_transition_mean (- x) t - 8 * cos (12 / 10 * t) = - (n1_transition_mean x t - 8 * cos (12 / 10 * t))
  /\ (forall k : Z, n1_transition_mean x (t + IZR k * (5 * PI / 3)) = n1_transition_mean x t).
Proof.
  intros sd x y t. split.
  { unfold n1_likelihood_potential, n1_likelihood_mean. replace ((- x) ^ 2) with (x ^ 2) by ring. reflexivity. }
  split.
  { unfold n1_transition_mean. replace ((- x) ^ 2) with (x ^ 2) by ring. assert (Q := pow2_ge_0 x). field. lra. }
  intros k. unfold n1_transition_mean. f_equal. f_equal.
  replace (12 / 10 * (t + IZR k * (5 * PI / 3))) with (12 / 10 * t + 2 * (IZR k * PI)) by field.
  assert (S0 : sin (IZR k * PI) = 0) by (apply sin_eq_0_1; exists k; reflexivity).
  rewrite cos_plus, cos_2a_sin, sin_2a, S0. ring.
Qed.
Print Assumptions C97_symmetry.

Example C97_example : n1_path 1 1 (fun j => INR j) (fun i => match i with O => 2 | S _ => 1 end) 1 = 20
  /\ Rabs (n1_path 1 1 (fun j => INR j) (fun i => match i with O => 2 | S _ => 1 end) 1) <= 44.
Proof.
  assert (E : n1_path 1 1 (fun j => INR j) (fun i => match i with O => 2 | S _ => 1 end) 1 = 20).
  { cbn [n1_path]. unfold n1_transition_sample, n1_transition_mean, n1_initial_sample. cbn [INR]. rewrite Rmult_0_r, cos_0. field. }
  split; [exact E|].
  assert (H := C97_bounded 1 1 (fun j => INR j) (fun i => match i with O => 2 | S _ => 1 end) 1 1 ltac:(lra) ltac:(lra)).
  eapply Rle_trans; [apply H|].
  - intros i Hi. destruct i; [lia|]. rewrite Rabs_R1. lra.
  - cbn [n1_path]. unfold n1_initial_sample. rewrite Rabs_right by lra. lra.
Qed.

(** * C99 *)
Section AxesProofs.
Variables (dens : R -> R -> R) (n : nat).
Local Notation gmax := (grid_max dens n).
Lemma gmax_ge xl yl r c : (r < n)%nat -> (c < n)%nat -> z_grid dens n xl yl r c <= gmax xl yl.
Proof.
  intros Hr Hc. unfold grid_max.
  assert (I : In (r, c) (list_prod (seq 0 n) (seq 0 n))) by (apply in_prod; apply in_seq; lia).
  revert I. generalize (list_prod (seq 0 n) (seq 0 n)) as l. induction l as [|[a b] l IH]; [contradiction|]. intros [E|I]; cbn [map fold_right].
  - injection E as -> ->. apply Rmax_l.
  - eapply Rle_trans; [exact (IH I)|apply Rmax_r].
Qed.
Lemma gmax_attained xl yl : (0 < n)%nat -> exists r c, (r < n)%nat /\ (c < n)%nat /\ z_grid dens n xl yl r c = gmax xl yl.
Proof.
  intros Hn. unfold grid_max.
  assert (A : forall r c, In (r, c) (list_prod (seq 0 n) (seq 0 n)) -> (r < n)%nat /\ (c < n)%nat).
  { intros r c I. apply in_prod_iff in I. rewrite !in_seq in I. lia. }
  revert A. generalize (list_prod (seq 0 n) (seq 0 n)) as l. induction l as [|[a b] l IH]; intros A; cbn [map fold_right].
  - exists 0%nat, 0%nat. auto.
  - assert (MD : forall a b, Rmax a b = a \/ Rmax a b = b) by (intros; unfold Rmax; destruct Rle_dec; auto).
    destruct (MD (z_grid dens n xl yl (fst (a, b)) (snd (a, b))) (fold_right Rmax (z_grid dens n xl yl 0 0) (map (fun rc => z_grid dens n xl yl (fst rc) (snd rc)) l))) as [E|E]; rewrite E.
    + exists a, b. destruct (A a b (or_introl eq_refl)). auto.
    + apply IH. intros r c I. apply A. right. exact I.
Qed.
Lemma Rltb_spec a b : Rltb a b = true <-> a < b.
Proof. unfold Rltb. destruct (Rlt_dec a b); split; intros; congruence || lra || assumption. Qed.

Lemma find_seq_first f k m i : find f (seq k m) = Some i -> (k <= i < k + m)%nat /\ f i = true /\ forall j, (k <= j < i)%nat -> f j = false.
Proof.
  revert k; induction m as [|m IH]; intros k H; [discriminate|]. cbn in H. destruct (f k) eqn:E.
  - injection H as <-. repeat split; try lia. exact E.
  - apply IH in H as (A & B & C). repeat split; try lia; [exact B|]. intros j Hj. destruct (Nat.eq_dec j k) as [->|]; [exact E|apply C; lia].
Qed.
Lemma find_seq_last f k m i : find f (rev (seq k m)) = Some i -> (k <= i < k + m)%nat /\ f i = true /\ forall j, (i < j < k + m)%nat -> f j = false.
Proof.
  induction m as [|m IH]; intros H; [discriminate|]. rewrite seq_S, rev_app_distr in H. cbn in H. destruct (f (k + m)%nat) eqn:E.
  - injection H as <-. repeat split; try lia. exact E.
  - apply IH in H as (A & B & C). repeat split; try lia; [exact B|]. intros j Hj. destruct (Nat.eq_dec j (k + m)) as [->|]; [exact E|apply C; lia].
Qed.
Lemma find_some_exists (f : nat -> bool) l i : In i l -> f i = true -> exists j, find f l = Some j.
Proof. induction l as [|a l IH]; [contradiction|]. intros [->|I] E; cbn; [rewrite E; eauto|]. destruct (f a); eauto. Qed.
Lemma has_row_spec m r : has_row n m r = true <-> exists c, (c < n)%nat /\ m r c = true.
Proof.
  unfold has_row. rewrite existsb_exists. split; intros (c & A & B); exists c.
  - apply in_seq in A. split; [lia|exact B].
  - split; [apply in_seq; lia|exact B].
Qed.
Lemma find_row_spec m fwd i : find_row n m fwd = Some i ->
  (i < n)%nat /\ (exists c, (c < n)%nat /\ m i c = true)
  /\ forall r c, (r < n)%nat -> (c < n)%nat -> m r c = true -> if fwd then (i <= r)%nat else (r <= i)%nat.
Proof.
  unfold find_row. destruct fwd; intros H.
  - apply find_seq_first in H as (A & B & C). split; [lia|]. split; [apply has_row_spec, B|]. intros r c Hr Hc E.
    destruct (le_lt_dec i r) as [|L]; [assumption|]. assert (F := C r ltac:(lia)). rewrite (proj2 (has_row_spec m r)) in F; [discriminate|]. eauto.
  - apply find_seq_last in H as (A & B & C). split; [lia|]. split; [apply has_row_spec, B|]. intros r c Hr Hc E.
    destruct (le_lt_dec r i) as [|L]; [assumption|]. assert (F := C r ltac:(lia)). rewrite (proj2 (has_row_spec m r)) in F; [discriminate|]. eauto.
Qed.
Lemma find_row_total m fwd r c : (r < n)%nat -> (c < n)%nat -> m r c = true -> exists i, find_row n m fwd = Some i.
Proof.
  intros Hr Hc E. unfold find_row. apply (find_some_exists _ _ r).
  - destruct fwd; [|rewrite <- in_rev]; apply in_seq; lia.
  - apply has_row_spec. eauto.
Qed.

Hypothesis Hn : (2 <= n)%nat.
Lemma n1_pos : 0 < INR (n - 1).
Proof. apply (lt_INR 0). lia. Qed.
Lemma linspace_le lim i j : 0 <= lim -> (i <= j)%nat -> linspace n lim i <= linspace n lim j.
Proof.
  intros Hl Hij. unfold linspace. assert (P := n1_pos). apply le_INR in Hij.
  apply Rplus_le_compat_l. unfold Rdiv. apply Rmult_le_compat_r; [apply Rlt_le, Rinv_0_lt_compat, P|]. nra.
Qed.
Lemma linspace_0 lim : linspace n lim 0 = - lim.
Proof. unfold linspace. cbn [INR]. field. apply Rgt_not_eq, n1_pos. Qed.
Lemma linspace_last lim : linspace n lim (n - 1) = lim.
Proof. unfold linspace. field. apply Rgt_not_eq, n1_pos. Qed.
Lemma linspace_range lim i : 0 <= lim -> (i < n)%nat -> - lim <= linspace n lim i <= lim.
Proof.
  intros Hl Hi. split; [rewrite <- linspace_0; apply linspace_le; [exact Hl|lia]|].
  rewrite <- (linspace_last lim) at 2. apply linspace_le; [exact Hl|lia].
Qed.
Lemma touches_iff l v : touches l v = true <-> l = Rabs v.
Proof. unfold touches. destruct (Req_EM_T l (Rabs v)); split; intros; congruence. Qed.
End AxesProofs.

(** When the search returns, it has ended with a grid on which the returned
    limits box in every point whose density exceeds a tenth of the largest, and
    each of the four limits is itself the coordinate of such a point; the limits
    are strictly inside the grid, and the largest density is not zero.  The grid
    comes from the given limits by doubling either axis and by shrinking both by
    the factor 1.5. *)
Theorem C99_limits_partial : forall dens n fuel xlim ylim xa xb ya yb, (2 <= n)%nat -> 0 < xlim -> 0 < ylim ->
  (forall x y, 0 <= dens x y) ->
  auto_axes_lims dens n fuel xlim ylim = Some ((xa, xb), (ya, yb)) ->
  exists X Y M, 0 < X /\ 0 < Y /\ 0 < M /\
    (exists a b c : nat, X = xlim * 2 ^ a / (3 / 2) ^ c /\ Y = ylim * 2 ^ b / (3 / 2) ^ c) /\
    let gx i := - X + INR i * (2 * X) / INR (n - 1) in
    let gy i := - Y + INR i * (2 * Y) / INR (n - 1) in
    (forall i j, (i < n)%nat -> (j < n)%nat -> dens (gx i) (gy j) <= M)
    /\ (exists i j, (i < n)%nat /\ (j < n)%nat /\ dens (gx i) (gy j) = M)
    /\ (forall i j, (i < n)%nat -> (j < n)%nat -> M / 10 < dens (gx i) (gy j) -> xa <= gx i <= xb /\ ya <= gy j <= yb)
    /\ (exists j, (j < n)%nat /\ M / 10 < dens xa (gy j)) /\ (exists j, (j < n)%nat /\ M / 10 < dens xb (gy j))
    /\ (exists i, (i < n)%nat /\ M / 10 < dens (gx i) ya) /\ (exists i, (i < n)%nat /\ M / 10 < dens (gx i) yb)
    /\ - X < xa <= xb /\ xb < X /\ - Y < ya <= yb /\ yb < Y.
Proof.
  intros dens n fuel. induction fuel as [|fuel IH]; intros xlim ylim xa xb ya yb Hn Hx Hy Hd H; [discriminate|].
  cbn [auto_axes_lims] in H. destruct (Req_EM_T (grid_max dens n xlim ylim) 0) as [E|E].
  { apply IH in H; auto; try lra. destruct H as (X & Y & M & PX & PY & PM & (a & b & c & EX & EY) & H).
    exists X, Y, M. split; [exact PX|]. split; [exact PY|]. split; [exact PM|]. split; [|exact H].
    exists a, b, (S c). rewrite EX, EY. cbn [pow]. assert ((3 / 2) ^ c <> 0) by (apply pow_nonzero; lra). split; field; lra. }
  set (keep := z_keep dens n xlim ylim) in H.
  destruct (find_row n (fun r c => keep c r) true) as [i0|] eqn:F1; [|discriminate].
  destruct (find_row n (fun r c => keep c r) false) as [i1|] eqn:F2; [|discriminate].
  destruct (find_row n keep true) as [j0|] eqn:F3; [|discriminate].
  destruct (find_row n keep false) as [j1|] eqn:F4; [|discriminate].
  cbv zeta in H. cbn [fst snd] in H.
  destruct (touches xlim (linspace n xlim i0) || touches xlim (linspace n xlim i1)) eqn:T1;
    destruct (touches ylim (linspace n ylim j0) || touches ylim (linspace n ylim j1)) eqn:T2; cbn [orb] in H;
    try (apply IH in H; auto; try lra; destruct H as (X & Y & M & PX & PY & PM & (a & b & c & EX & EY) & H);
         exists X, Y, M; split; [exact PX|]; split; [exact PY|]; split; [exact PM|]; split; [|exact H];
         assert ((3 / 2) ^ c <> 0) by (apply pow_nonzero; lra)).
  { exists (S a), (S b), c. rewrite EX, EY. cbn [pow]. split; field; lra. }
  { exists (S a), b, c. rewrite EX, EY. cbn [pow]. split; field; lra. }
  { exists a, (S b), c. rewrite EX, EY. cbn [pow]. split; field; lra. }
  injection H as <- <- <- <-.
  apply orb_false_iff in T1 as [T10 T11]. apply orb_false_iff in T2 as [T20 T21].
  apply find_row_spec in F1 as (I0 & (c0 & C0 & K0) & B0). apply find_row_spec in F2 as (I1 & (c1 & C1 & K1) & B1).
  apply find_row_spec in F3 as (J0 & (r0 & R0 & L0) & D0). apply find_row_spec in F4 as (J1 & (r1 & R1' & L1) & D1).
  destruct (gmax_attained dens n xlim ylim) as (r & c & Hr & Hc & Em); [lia|].
  assert (Mp : 0 < grid_max dens n xlim ylim).
  { rewrite <- Em in *. unfold z_grid in *. destruct (Hd (linspace n xlim c) (linspace n ylim r)); [assumption|congruence]. }
  assert (U : forall l v, 0 < l -> - l <= v <= l -> touches l v = false -> - l < v < l).
  { intros l v Hl Hv T. assert (Nv : l <> Rabs v) by (intros Q; apply touches_iff in Q; congruence).
    destruct Hv as [[A|A] [B|B]]; try lra; exfalso; apply Nv.
    - rewrite B. rewrite Rabs_right; lra.
    - rewrite <- A, Rabs_left; lra. }
  assert (G := fun lim i Hl Hi => linspace_range n Hn lim i Hl Hi).
  exists xlim, ylim, (grid_max dens n xlim ylim). split; [exact Hx|]. split; [exact Hy|]. split; [exact Mp|]. cbv zeta.
  split. { exists 0%nat, 0%nat, 0%nat. cbn [pow]. split; field. }
  change (fun i => - xlim + INR i * (2 * xlim) / INR (n - 1)) with (linspace n xlim).
  split. { intros i j Hi Hj. exact (gmax_ge dens n xlim ylim j i Hj Hi). }
  split. { exists c, r. auto. }
  split.
  { intros i j Hi Hj Hk. assert (KE : keep j i = true) by (apply Rltb_spec; exact Hk).
    assert (Q0 := B0 i j Hi Hj KE). assert (Q1 := B1 i j Hi Hj KE). assert (P0 := D0 j i Hj Hi KE). assert (P1 := D1 j i Hj Hi KE).
    cbn in Q0, Q1, P0, P1.
    repeat split; apply linspace_le; auto; lra. }
  split. { exists c0. split; [exact C0|]. apply Rltb_spec in K0. exact K0. }
  split. { exists c1. split; [exact C1|]. apply Rltb_spec in K1. exact K1. }
  split. { exists r0. split; [exact R0|]. apply Rltb_spec in L0. exact L0. }
  split. { exists r1. split; [exact R1'|]. apply Rltb_spec in L1. exact L1. }
  assert (X0 := U _ _ Hx (G xlim i0 ltac:(lra) I0) T10). assert (X1 := U _ _ Hx (G xlim i1 ltac:(lra) I1) T11).
  assert (Y0 := U _ _ Hy (G ylim j0 ltac:(lra) J0) T20). assert (Y1 := U _ _ Hy (G ylim j1 ltac:(lra) J1) T21).
  assert (Ox := linspace_le n Hn xlim i0 i1 ltac:(lra) (B1 i0 c0 I0 C0 K0)).
  assert (Oy := linspace_le n Hn ylim j0 j1 ltac:(lra) (D1 j0 r0 J0 R0 L0)).
  repeat split; try assumption; lra.
Qed.
Print Assumptions C99_limits_partial.

(** It returns at once when the grid holds a positive density and the density on
    the border of the grid is below a tenth of the largest. *)
Theorem C99_returns : forall dens n fuel xlim ylim i j, (2 <= n)%nat -> 0 < xlim -> 0 < ylim ->
  (i < n)%nat -> (j < n)%nat ->
  let gx i := - xlim + INR i * (2 * xlim) / INR (n - 1) in
  let gy i := - ylim + INR i * (2 * ylim) / INR (n - 1) in
  0 < dens (gx i) (gy j) ->
  (forall x y, Rabs x = xlim \/ Rabs y = ylim -> dens x y <= dens (gx i) (gy j) / 10) ->
  exists r, auto_axes_lims dens n (S fuel) xlim ylim = Some r.
Proof.
  intros dens n fuel xlim ylim i j Hn Hx Hy Hi Hj gx gy Hp Hb. cbn [auto_axes_lims].
  change (gx i) with (linspace n xlim i) in *. change (gy j) with (linspace n ylim j) in *.
  assert (Gm := gmax_ge dens n xlim ylim j i Hj Hi). unfold z_grid in Gm.
  destruct (Req_EM_T (grid_max dens n xlim ylim) 0) as [E|_]; [lra|].
  set (keep := z_keep dens n xlim ylim).
  destruct (gmax_attained dens n xlim ylim) as (r & c & Hr & Hc & Em); [lia|].
  assert (Kp : keep r c = true) by (apply Rltb_spec; rewrite Em; lra).
  destruct (find_row_total n (fun r c => keep c r) true c r Hc Hr Kp) as [i0 F1]. destruct (find_row_total n (fun r c => keep c r) false c r Hc Hr Kp) as [i1 F2].
  destruct (find_row_total n keep true r c Hr Hc Kp) as [j0 F3]. destruct (find_row_total n keep false r c Hr Hc Kp) as [j1 F4].
  rewrite F1, F2, F3, F4. cbn [fst snd].
  apply find_row_spec in F1 as (_ & (c0 & _ & K0) & _). apply find_row_spec in F2 as (_ & (c1 & _ & K1) & _).
  apply find_row_spec in F3 as (_ & (r0 & _ & L0) & _). apply find_row_spec in F4 as (_ & (r1 & _ & L1) & _).
  assert (Bx : forall v q, keep q v = true -> touches xlim (linspace n xlim v) = false).
  { intros v q K. destruct (touches xlim (linspace n xlim v)) eqn:T; [|reflexivity]. apply touches_iff in T.
    apply Rltb_spec in K. unfold z_grid in K. specialize (Hb (linspace n xlim v) (linspace n ylim q) (or_introl (eq_sym T))). lra. }
  assert (By : forall v q, keep v q = true -> touches ylim (linspace n ylim v) = false).
  { intros v q K. destruct (touches ylim (linspace n ylim v)) eqn:T; [|reflexivity]. apply touches_iff in T.
    apply Rltb_spec in K. unfold z_grid in K. specialize (Hb (linspace n xlim q) (linspace n ylim v) (or_intror (eq_sym T))). lra. }
  rewrite (Bx i0 c0 K0), (Bx i1 c1 K1), (By j0 r0 L0), (By j1 r1 L1). cbn [orb]. eauto.
Qed.
Print Assumptions C99_returns.

(** The search does not end for a flat density, nor for one that is zero on
    every grid. *)
Theorem C99_total_refuted : forall n fuel xlim ylim, (2 <= n)%nat -> 0 < xlim -> 0 < ylim ->
  auto_axes_lims (fun _ _ => 1) n fuel xlim ylim = None /\ auto_axes_lims (fun _ _ => 0) n fuel xlim ylim = None.
Proof.
  intros n fuel xlim ylim Hn. revert xlim ylim. induction fuel as [|fuel IH]; intros xlim ylim Hx Hy; [split; reflexivity|].
  split.
  - cbn [auto_axes_lims]. destruct (gmax_attained (fun _ _ => 1) n xlim ylim) as (r & c & Hr & Hc & Em); [lia|]. unfold z_grid in Em.
    destruct (Req_EM_T (grid_max (fun _ _ => 1) n xlim ylim) 0) as [E|_]; [lra|].
    assert (Kp : forall a b, z_keep (fun _ _ => 1) n xlim ylim a b = true) by (intros a b; apply Rltb_spec; unfold z_grid; lra).
    assert (Z : forall m, (forall a b, m a b = true) -> find_row n m true = Some 0%nat).
    { intros m Hm. unfold find_row. destruct n as [|n']; [lia|]. cbn [seq find]. unfold has_row. cbn [seq existsb]. rewrite Hm. reflexivity. }
    rewrite (Z _ Kp), (Z (fun r c => z_keep (fun _ _ => 1) n xlim ylim c r) (fun a b => Kp b a)).
    destruct (find_row n (fun r c => z_keep (fun _ _ => 1) n xlim ylim c r) false); [|reflexivity].
    destruct (find_row n (z_keep (fun _ _ => 1) n xlim ylim) false); [|reflexivity]. cbn [fst snd].
    assert (T : forall l, 0 < l -> touches l (linspace n l 0) = true).
    { intros l Hl. apply touches_iff. rewrite linspace_0 by exact Hn. rewrite Rabs_left; lra. }
    rewrite (T xlim Hx), (T ylim Hy). cbn [orb]. apply IH; lra.
  - cbn [auto_axes_lims]. destruct (gmax_attained (fun _ _ => 0) n xlim ylim) as (r & c & Hr & Hc & Em); [lia|]. unfold z_grid in Em.
    destruct (Req_EM_T (grid_max (fun _ _ => 0) n xlim ylim) 0) as [_|E]; [|lra]. apply IH; lra.
Qed.
Print Assumptions C99_total_refuted.

(** Lines 84-87 mean to widen the limits by a margin; the widened limits are not
    stored: here the density at the left limit is the largest one. *)
Definition unit_box (x y : R) : R := if Rle_dec (Rabs x) 1 then if Rle_dec (Rabs y) 1 then 1 else 0 else 0.
Theorem C99_margin_refuted : exists xa xb ya yb,
  auto_axes_lims unit_box 100 1 10 10 = Some ((xa, xb), (ya, yb)) /\ exists y, unit_box xa y = 1.
Proof.
  assert (Hd : forall x y, 0 <= unit_box x y) by (intros; unfold unit_box; destruct Rle_dec; [destruct Rle_dec|]; lra).
  assert (P1 : forall i, i = 50%nat -> Rabs (- (10) + INR i * (2 * 10) / INR (100 - 1)) <= 1).
  { intros i ->. replace (INR 50) with 50 by (rewrite INR_IZR_INZ; reflexivity). replace (INR (100 - 1)) with 99 by (rewrite INR_IZR_INZ; reflexivity).
    apply Rabs_le. lra. }
  destruct (C99_returns unit_box 100 0 10 10 50 50) as [[[xa xb] [ya yb]] H]; try lia; try lra.
  - unfold unit_box. assert (Q := P1 50%nat eq_refl). destruct Rle_dec as [|N]; [lra|contradiction].
  - intros x y Hxy. apply Rle_trans with 0.
    + assert (B : 1 < Rabs x \/ 1 < Rabs y) by (destruct Hxy; [left|right]; lra). unfold unit_box.
      destruct (Rle_dec (Rabs x) 1); [destruct (Rle_dec (Rabs y) 1)|]; lra.
    + match goal with |- 0 <= ?a / 10 => assert (0 <= a) by apply Hd end. lra.
  - exists xa, xb, ya, yb. split; [exact H|].
    destruct (C99_limits_partial unit_box 100 1 10 10 xa xb ya yb ltac:(lia) ltac:(lra) ltac:(lra) Hd H) as (X & Y & M & _ & _ & Mp & _ & _ & _ & _ & (j & _ & Q) & _).
    exists (- Y + INR j * (2 * Y) / INR (100 - 1)). unfold unit_box in *. destruct Rle_dec; [destruct Rle_dec|]; lra.
Qed.
Print Assumptions C99_margin_refuted.

(** On the grid -2, 0, 2 only the origin is kept. *)
Example C99_example : auto_axes_lims unit_box 3 1 2 2 = Some ((0, 0), (0, 0)).
Proof.
  assert (L0 : linspace 3 2 0 = -2) by (unfold linspace; cbn; field).
  assert (L1 : linspace 3 2 1 = 0) by (unfold linspace; cbn; field).
  assert (L2 : linspace 3 2 2 = 2) by (unfold linspace; cbn; field).
  assert (A2 : Rabs 2 = 2) by (apply Rabs_right; lra). assert (Am : Rabs (-2) = 2) by (rewrite Rabs_left; lra).
  assert (Z : forall r c, (r < 3)%nat -> (c < 3)%nat -> z_grid unit_box 3 2 2 r c = if (Nat.eqb r 1 && Nat.eqb c 1)%bool then 1 else 0).
  { intros r c Hr Hc. unfold z_grid, unit_box.
    destruct r as [|[|[|r]]]; [| | |lia]; (destruct c as [|[|[|c]]]; [| | |lia]); rewrite ?L0, ?L1, ?L2; cbn [Nat.eqb andb];
      rewrite ?A2, ?Am, ?Rabs_R0; repeat (destruct Rle_dec; try lra). }
  assert (M : grid_max unit_box 3 2 2 = 1).
  { assert (G := gmax_ge unit_box 3 2 2 1 1 ltac:(lia) ltac:(lia)). rewrite Z in G by lia. cbn [Nat.eqb andb] in G.
    destruct (gmax_attained unit_box 3 2 2) as (r & c & Hr & Hc & E); [lia|]. rewrite Z in E by lia. rewrite <- E in G |- *. clear E.
    destruct (Nat.eqb r 1 && Nat.eqb c 1)%bool; lra. }
  assert (K : forall r c, (r < 3)%nat -> (c < 3)%nat -> z_keep unit_box 3 2 2 r c = (Nat.eqb r 1 && Nat.eqb c 1)%bool).
  { intros r c Hr Hc. unfold z_keep. rewrite M, Z by assumption. unfold Rltb. destruct (Nat.eqb r 1 && Nat.eqb c 1)%bool; destruct Rlt_dec; lra || reflexivity. }
  cbn [auto_axes_lims]. rewrite M. destruct (Req_EM_T 1 0) as [E|_]; [lra|].
  unfold find_row, has_row. cbn [seq rev app find existsb]. rewrite !K by lia. cbn [Nat.eqb andb orb fst snd]. rewrite L1.
  assert (T : touches 2 0 = false) by (unfold touches; rewrite Rabs_R0; destruct Req_EM_T; [lra|reflexivity]).
  rewrite T. reflexivity.
Qed.
