(** Theorems on the Lorenz models: C52, C83, C84. *)
From Coq Require Import Reals ZArith Lra Lia Psatz Arith.
From Coquelicot Require Import Coquelicot.
From Verif Require Import McmcModel SsmSpec SsmProofs GcProofs LorenzModel LorenzSpec LorenzProofs.
Open Scope R_scope.

(** * C52 *)
Theorem C52_rotation :
  forall d s forcing x i, (0 < d)%nat -> (i < d)%nat ->
  lorenz96_dynamics d forcing (rotate d s x) i = rotate d s (lorenz96_dynamics d forcing x) i.
Proof.
  intros d s F x i Hd Hi. unfold lorenz96_dynamics, rotate. rewrite !wrap_nat by exact Hd.
  rewrite !wrap_add by exact Hd. rewrite !(Z.add_comm _ (Z.of_nat s)). reflexivity.
Qed.
Print Assumptions C52_rotation.

(** With zero forcing the rate of change of half the squared norm is minus the
    squared norm: the quadratic term is orthogonal to the state. *)
Theorem C52_energy :
  forall d forcing x,
  sumn d (fun i => x i * lorenz96_dynamics d forcing x i) = - sqnorm d x + forcing * sumn d x.
Proof.
  intros d F x. unfold lorenz96_dynamics, sqnorm.
  rewrite <- (Rplus_0_l (- _ + _)), <- (advection d x).
  replace (- sumn d (fun i => x i * x i)) with (-1 * sumn d (fun i => x i * x i)) by ring.
  rewrite <- !sumn_scal, <- !sumn_plus. apply sumn_ext. intros i Hi. ring.
Qed.
Print Assumptions C52_energy.

Example C52_example :
  let x := fun i => INR i in
  lorenz96_dynamics 4 8 x 0%nat = 5 /\ lorenz96_dynamics 4 8 x 1%nat = 7 /\ lorenz96_dynamics 4 8 x 2%nat = 9
  /\ lorenz96_dynamics 4 8 x 3%nat = 3 /\ sqnorm 4 x = 14.
Proof.
  cbv zeta. unfold lorenz96_dynamics, wrap, sqnorm. cbn.
  change (Pos.to_nat 1) with 1%nat. change (Pos.to_nat 2) with 2%nat. change (Pos.to_nat 3) with 3%nat. cbn. repeat apply conj; lra.
Qed.

(** The volume contracts at the constant rate of the dimension, but for two
    components. *)
Theorem C52_divergence :
  forall d forcing x, d <> 2%nat -> is_divergence d (lorenz96_dynamics d forcing) x (- INR d).
Proof.
  intros d F x Hd. exists (fun _ => -1). split.
  - intros i Hi. unfold lorenz96_dynamics, set_coord. rewrite Nat.eqb_refl.
    destruct d as [|[|[|d]]]; [lia| | |].
    + assert (i = 0%nat) by lia. subst i. cbn. auto_derive; [exact I|ring].
    + lia.
    + set (e := S (S (S d))) in *.
      assert (N1 : wrap e i 1 <> i).
      { unfold wrap. intros E. assert (Z.of_nat i + 1 < Z.of_nat e \/ Z.of_nat i + 1 = Z.of_nat e)%Z as [L|L] by lia.
        - rewrite Z.mod_small in E by lia. lia.
        - rewrite L, Z.mod_same in E by lia. cbn in E. subst i. lia. }
      assert (N2 : wrap e i (-1) <> i).
      { intros E. apply N1. rewrite <- E at 1. rewrite wrap_add by lia. cbn. rewrite wrap_0 by exact Hi. reflexivity. }
      assert (N3 : wrap e i (-2) <> i).
      { unfold wrap. intros E. destruct i as [|[|i]].
        - cbn [Z.of_nat Z.add] in E. rewrite <- (Z_mod_plus_full _ 1), Z.mod_small in E by lia. lia.
        - change (Z.of_nat 1 + -2)%Z with (-1)%Z in E. rewrite <- (Z_mod_plus_full _ 1), Z.mod_small in E by lia. lia.
        - rewrite Z.mod_small in E by lia. lia. }
      rewrite (proj2 (Nat.eqb_neq _ _) N1), (proj2 (Nat.eqb_neq _ _) N2), (proj2 (Nat.eqb_neq _ _) N3).
      auto_derive; [exact I|ring].
  - clear Hd. induction d as [|d IH]; [cbn; lra|]. rewrite S_INR. cbn [sumn]. lra.
Qed.
Print Assumptions C52_divergence.

(** * C83: Lorenz-96 trajectories enter and stay in a ball *)
Theorem C83_bounded :
  forall d forcing x, trajectory d (lorenz96_dynamics d forcing) x ->
  forall t, 0 <= t ->
  sqnorm d (x t) <= INR d * forcing ^ 2 + exp (- t) * (sqnorm d (x 0) - INR d * forcing ^ 2).
Proof.
  intros d F x T t Ht. replace (- t) with (- (1) * t) by ring.
  apply (gronwall (fun s => sqnorm d (x s)) _ (INR d * F ^ 2) 1 (fun s => sqnorm_derive d _ x s T)); [|exact Ht].
  intros s Hs. cbv beta. rewrite C52_energy.
  assert (K : F * sumn d (x s) <= / 2 * (sqnorm d (x s) + INR d * F ^ 2)).
  { unfold sqnorm. rewrite <- sumn_scal.
    replace (/ 2 * (sumn d (fun i => x s i * x s i) + INR d * F ^ 2)) with (sumn d (fun i => / 2 * (x s i * x s i + F ^ 2))).
    - apply sumn_le. intros i Hi. pose proof (Rle_0_sqr (x s i - F)) as S. unfold Rsqr in S. nra.
    - rewrite sumn_scal, sumn_plus. do 2 f_equal. clear. induction d as [|d IH]; [cbn; ring|].
      rewrite S_INR. cbn [sumn]. rewrite IH. ring. }
  lra.
Qed.
Print Assumptions C83_bounded.

(** In particular no trajectory escapes from the ball of squared radius
    dimension times the squared forcing. *)
Theorem C83_invariant_ball :
  forall d forcing x, trajectory d (lorenz96_dynamics d forcing) x ->
  sqnorm d (x 0) <= INR d * forcing ^ 2 -> forall t, 0 <= t -> sqnorm d (x t) <= INR d * forcing ^ 2.
Proof.
  intros d F x T H t Ht. pose proof (C83_bounded d F x T t Ht). pose proof (exp_pos (- t)). nra.
Qed.
Print Assumptions C83_invariant_ball.

(** A trajectory that is not at rest: all coordinates equal, relaxing to the forcing. *)
Example C83_example :
  let x := fun t (_ : nat) => 8 - 3 * exp (- t) in
  trajectory 40 (lorenz96_dynamics 40 8) x /\ x 0 0%nat = 5 /\ sqnorm 40 (x 0) <= INR 40 * 8 ^ 2.
Proof.
  cbv zeta. split; [|split].
  - intros t Ht i Hi. unfold lorenz96_dynamics. auto_derive; [exact I|ring].
  - rewrite Ropp_0, exp_0. ring.
  - rewrite Ropp_0, exp_0. unfold sqnorm. cbn. lra.
Qed.

(** * C84: Lorenz-63 *)
Theorem C84_symmetry :
  forall sigma rho beta x i,
  let flip := fun (v : vec) j => match j with 0%nat | 1%nat => - v j | _ => v j end in
  lorenz63_dynamics sigma rho beta (flip x) i = flip (lorenz63_dynamics sigma rho beta x) i.
Proof. intros s r b x i flip. destruct i as [|[|i]]; unfold flip, lorenz63_dynamics; ring. Qed.
Print Assumptions C84_symmetry.

Theorem C84_divergence :
  forall sigma rho beta x, is_divergence 3 (lorenz63_dynamics sigma rho beta) x (- (sigma + 1 + beta)).
Proof.
  intros s r b x. exists (fun i => match i with 0%nat => - s | 1%nat => - 1 | _ => - b end). split.
  - intros i Hi. destruct i as [|[|[|i]]]; [| | |lia]; unfold lorenz63_dynamics, set_coord; cbn; auto_derive; try exact I; ring.
  - cbn. ring.
Qed.
Print Assumptions C84_divergence.

(** Squared distance from the point (0, 0, sigma + rho). *)
Definition shifted (sigma rho : R) (v : vec) : R :=
  v 0%nat * v 0%nat + v 1%nat * v 1%nat + (v 2%nat - (sigma + rho)) * (v 2%nat - (sigma + rho)).

(** With positive parameters every trajectory approaches a ball around that
    point and is bounded; [c] is any rate up to each of sigma, 1 and beta. *)
Theorem C84_bounded :
  forall sigma rho beta c x, 0 < c -> c <= sigma -> c <= 1 -> c <= beta ->
  trajectory 3 (lorenz63_dynamics sigma rho beta) x ->
  forall t, 0 <= t ->
  let b := beta * (sigma + rho) ^ 2 / c in
  shifted sigma rho (x t) <= b + exp (- c * t) * (shifted sigma rho (x 0) - b).
Proof.
  intros s r be c x Hc Hs H1 Hb T t Ht b.
  set (f := lorenz63_dynamics s r be) in *.
  set (V' := fun u => 2 * (x u 0%nat * f (x u) 0%nat + x u 1%nat * f (x u) 1%nat + (x u 2%nat - (s + r)) * f (x u) 2%nat)).
  apply (gronwall (fun u => shifted s r (x u)) V'); [| |exact Ht].
  - intros u Hu. unfold shifted, V'.
    pose proof (T u Hu 0%nat ltac:(lia)) as D0. pose proof (T u Hu 1%nat ltac:(lia)) as D1. pose proof (T u Hu 2%nat ltac:(lia)) as D2.
    revert D0 D1 D2. generalize (f (x u) 0%nat) (f (x u) 1%nat) (f (x u) 2%nat). intros l0 l1 l2.
    set (x0 := fun s => x s 0%nat). set (x1 := fun s => x s 1%nat). set (x2 := fun s => x s 2%nat). intros D0 D1 D2.
    change (is_derive x0 u l0) in D0. change (is_derive x1 u l1) in D1. change (is_derive x2 u l2) in D2.
    change (is_derive (fun u => x0 u * x0 u + x1 u * x1 u + (x2 u - (s + r)) * (x2 u - (s + r))) u
              (2 * (x0 u * l0 + x1 u * l1 + (x2 u - (s + r)) * l2))).
    clearbody x0 x1 x2.
    assert (ex_derive x0 u) by (eexists; exact D0). assert (ex_derive x1 u) by (eexists; exact D1).
    assert (ex_derive x2 u) by (eexists; exact D2).
    auto_derive; [auto 10|].
    replace (Derive (fun s : R => x0 s) u) with l0 by (symmetry; exact (is_derive_unique _ _ _ D0)).
    replace (Derive (fun s : R => x1 s) u) with l1 by (symmetry; exact (is_derive_unique _ _ _ D1)).
    replace (Derive (fun s : R => x2 s) u) with l2 by (symmetry; exact (is_derive_unique _ _ _ D2)). ring.
  - intros u Hu. unfold V', shifted, b, f, lorenz63_dynamics. generalize (x u 0%nat) (x u 1%nat) (x u 2%nat). intros p q z.
    replace (- c * (p * p + q * q + (z - (s + r)) * (z - (s + r)) - be * (s + r) ^ 2 / c))
      with (- c * (p * p + q * q + (z - (s + r)) * (z - (s + r))) + be * (s + r) ^ 2) by (field; lra).
    set (k := s + r). replace (s * (q - p)) with (s * q - s * p) by ring.
    assert (E : 2 * (p * (s * q - s * p) + q * (p * (r - z) - q) + (z - k) * (p * q - be * z))
                = - 2 * s * (p * p) - 2 * (q * q) - be * (z * z) - be * ((z - k) * (z - k)) + be * k ^ 2) by (unfold k; ring).
    rewrite E.
    assert (0 <= (2 * s - c) * (p * p)) by (apply Rmult_le_pos; nra).
    assert (0 <= (2 - c) * (q * q)) by (apply Rmult_le_pos; nra).
    assert (0 <= (be - c) * ((z - k) * (z - k))) by (apply Rmult_le_pos; [lra|apply Rle_0_sqr]).
    assert (0 <= be * (z * z)) by (apply Rmult_le_pos; nra). lra.
Qed.
Print Assumptions C84_bounded.

(** Along the vertical axis the motion is a decay. *)
Example C84_example :
  let x := fun t i => match i with 2%nat => exp (- (8 / 3) * t) | _ => 0 end in
  trajectory 3 (lorenz63_dynamics 10 28 (8 / 3)) x /\ x 0 2%nat = 1 /\ 1 <= 10 /\ 1 <= 8 / 3.
Proof.
  cbv zeta. split; [|split; [|lra]].
  - intros t Ht i Hi. destruct i as [|[|[|i]]]; [| | |lia]; unfold lorenz63_dynamics; cbn; auto_derive; try exact I; ring.
  - rewrite Rmult_0_r. apply exp_0.
Qed.

(** The equilibria. *)
Theorem C84_equilibria :
  forall sigma rho beta x, 0 < sigma -> 0 < beta ->
  (forall i, (i < 3)%nat -> lorenz63_dynamics sigma rho beta x i = 0)
  <-> (x 0%nat = 0 /\ x 1%nat = 0 /\ x 2%nat = 0)
      \/ (x 1%nat = x 0%nat /\ x 2%nat = rho - 1 /\ x 0%nat ^ 2 = beta * (rho - 1)).
Proof.
  intros s r b x Hs Hb. split.
  - intros H. pose proof (H 0%nat ltac:(lia)) as H0. pose proof (H 1%nat ltac:(lia)) as H1. pose proof (H 2%nat ltac:(lia)) as H2.
    cbn [lorenz63_dynamics] in H0, H1, H2.
    assert (E : x 1%nat = x 0%nat).
    { apply Rmult_integral in H0. destruct H0; lra. }
    rewrite E in H1, H2. replace (x 0%nat * (r - x 2%nat) - x 0%nat) with (x 0%nat * (r - 1 - x 2%nat)) in H1 by ring.
    apply Rmult_integral in H1. destruct H1 as [Z|Z].
    + left. rewrite E, Z in *. repeat split; try reflexivity. assert (Q : b * x 2%nat = 0) by lra.
      apply Rmult_integral in Q. destruct Q; lra.
    + right. split; [exact E|]. split; [lra|]. replace (r - 1) with (x 2%nat) by lra. lra.
  - intros [(A & B & C)|(A & B & C)] i Hi; destruct i as [|[|[|i]]]; try lia; cbn [lorenz63_dynamics];
      rewrite ?A, ?B; rewrite ?C; try ring. rewrite C || idtac. lra.
Qed.
Print Assumptions C84_equilibria.
