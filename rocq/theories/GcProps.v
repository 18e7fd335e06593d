(** Theorems on the Gaspari-Cohn taper: C49, C82. *)
From Coq Require Import Reals ZArith Bool Lra Lia Psatz.
From Coquelicot Require Import Coquelicot.
From Verif Require Import XR SsmSpec SsmProofs GcModel GcSpec GcProofs.
Open Scope R_scope.

(** * C49 *)
(** The taper matrix: symmetric, one on the diagonal, between zero and one, zero
    exactly from twice the radius on, non-increasing in the distance on the
    cycle and invariant under cyclic shifts. *)
Theorem C49_matrix :
  forall dim radius, 0 < radius -> let M := gc_matrix dim radius in
  forall i j, (0 <= i < dim)%Z -> (0 <= j < dim)%Z ->
  M i j = M j i /\ M i i = 1 /\ 0 <= M i j <= 1
  /\ (forall c, cyclic_distance dim i j c ->
        M i j = gc (IZR c) radius /\ (2 * radius <= IZR c <-> M i j = 0)
        /\ (forall i' j' c', (0 <= i' < dim)%Z -> (0 <= j' < dim)%Z -> cyclic_distance dim i' j' c' ->
              (c <= c')%Z -> M i' j' <= M i j))
  /\ (forall s, M ((i + s) mod dim)%Z ((j + s) mod dim)%Z = M i j).
Proof.
  intros dim r Hr M i j Hi Hj.
  assert (U : forall i j c, (0 <= i < dim)%Z -> (0 <= j < dim)%Z -> cyclic_distance dim i j c -> M i j = gc (IZR c) r).
  { intros i' j' c Hi' Hj' H. unfold M, gc_matrix. do 2 f_equal.
    eapply cyclic_distance_unique; [apply gc_distance_cyclic; assumption|exact H]. }
  assert (P : forall i j c, cyclic_distance dim i j c -> 0 <= IZR c).
  { intros i' j' c [[k ->] _]. apply IZR_le. lia. }
  assert (T : forall i j c, (0 <= i < dim)%Z -> (0 <= j < dim)%Z -> cyclic_distance dim i j c -> M i j = taper (IZR c / r)).
  { intros i' j' c Hi' Hj' H. rewrite (U _ _ _ Hi' Hj' H). apply gc_taper; [exact Hr|]. eapply P, H. }
  pose proof (gc_distance_cyclic dim i j Hi Hj) as Dij.
  split; [|split; [|split; [|split]]].
  - rewrite (U i j _ Hi Hj Dij). symmetry. apply U; auto. apply cyclic_distance_sym, Dij.
  - assert (D0 : cyclic_distance dim i i 0).
    { split; [exists 0%Z|intros k]; lia. }
    rewrite (T i i _ Hi Hi D0). apply taper_0. unfold Rdiv. lra.
  - rewrite (T i j _ Hi Hj Dij). apply taper_range.
  - intros c Hc. split; [apply U; assumption|]. rewrite (T i j c Hi Hj Hc).
    pose proof (P _ _ _ Hc) as Pc. split; [split|].
    + intros H. apply taper_2. apply (Rmult_le_reg_r r); [exact Hr|]. unfold Rdiv. rewrite Rmult_assoc, Rinv_l by lra. lra.
    + intros H. destruct (Rle_dec (2 * r) (IZR c)) as [|N]; [assumption|exfalso]. apply Rnot_le_lt in N.
      assert (u0 : IZR c / r < 2).
      { apply (Rmult_lt_reg_r r); [exact Hr|]. unfold Rdiv. rewrite Rmult_assoc, Rinv_l by lra. lra. }
      pose proof (taper_dec (Rmax 1 (IZR c / r)) (IZR c / r)) as _.
      assert (taper (Rmax 1 (IZR c / r)) <= taper (IZR c / r)) by (apply taper_dec, Rmax_r).
      assert (0 < taper (Rmax 1 (IZR c / r))).
      { set (u := Rmax 1 (IZR c / r)). assert (1 <= u < 2).
        { unfold u. split; [apply Rmax_l|]. apply Rmax_lub_lt; lra. }
        unfold taper, clamp. destruct gc_join as (J1 & _).
        rewrite (Rmin_left 1 u), (Rmax_right 0 1), J1, (Rmin_right 2 u), (Rmax_right 1 u), gc_mid_factor by lra.
        assert (0 < (2 - u) ^ 4) by (apply pow_lt; lra).
        assert (0 < (2 - u) ^ 4 * (u ^ 2 + 2 * u - 1 / 2) / (12 * u)); [|lra].
        apply Rdiv_lt_0_compat; [|lra]. apply Rmult_lt_0_compat; [assumption|nra]. }
      lra.
    + intros i' j' c' Hi' Hj' Hc' L. rewrite (T i' j' c' Hi' Hj' Hc'). apply taper_dec.
      unfold Rdiv. apply Rmult_le_compat_r; [left; apply Rinv_0_lt_compat, Hr|]. apply IZR_le, L.
  - intros s. assert (dim <> 0)%Z by lia.
    rewrite (U i j _ Hi Hj Dij). apply U; [apply Z.mod_pos_bound; lia..|].
    pose proof (Z.div_mod (i + s) dim ltac:(lia)) as Ei. pose proof (Z.div_mod (j + s) dim ltac:(lia)) as Ej.
    assert (Ds : cyclic_distance dim (i + s) (j + s) (gc_distance dim i j)).
    { destruct Dij as [[k E] A]. split; [exists k; rewrite E; f_equal; ring|].
      intros k'. replace (j + s - (i + s) + k' * dim)%Z with (j - i + k' * dim)%Z by ring. apply A. }
    pose proof (cyclic_distance_shift dim _ _ (- ((i + s) / dim)) (- ((j + s) / dim)) _ Ds) as F.
    replace (i + s + - ((i + s) / dim) * dim)%Z with ((i + s) mod dim)%Z in F by lia.
    replace (j + s + - ((j + s) / dim) * dim)%Z with ((j + s) mod dim)%Z in F by lia. exact F.
Qed.
Print Assumptions C49_matrix.

(** The taper as a function of a real distance: continuous and non-increasing. *)
Theorem C49_function :
  forall radius, 0 < radius ->
  (forall z, continuity_pt (fun z => gc (Rabs z) radius) z)
  /\ (forall x y, 0 <= x -> x <= y -> gc y radius <= gc x radius)
  /\ gc 0 radius = 1 /\ gc radius radius = 5 / 24 /\ gc (2 * radius) radius = 0.
Proof.
  intros r Hr. split; [|split; [|split; [|split]]].
  - intros z. apply continuity_pt_filterlim. change (continuous (fun z => gc (Rabs z) r) z).
    apply (continuous_ext (fun z => taper (Rabs z / r))).
    + intros y. symmetry. apply gc_taper; [exact Hr|apply Rabs_pos].
    + apply (continuous_comp (fun z => Rabs z / r) taper); [|apply taper_continuous].
      apply continuity_pt_filterlim. unfold Rdiv. reg.
  - intros x y Hx Hxy. rewrite !gc_taper by lra. apply taper_dec.
    unfold Rdiv. apply Rmult_le_compat_r; [left; apply Rinv_0_lt_compat, Hr|exact Hxy].
  - rewrite gc_taper by lra. apply taper_0. unfold Rdiv. lra.
  - rewrite gc_taper by lra. replace (r / r) with 1 by (field; lra). destruct gc_join as (J1 & J2 & _).
    unfold taper, clamp. rewrite (Rmin_left 1 1), (Rmax_right 0 1), (Rmin_right 2 1), (Rmax_left 1 1), J1, J2 by lra. lra.
  - rewrite gc_taper by lra. apply taper_2. replace (2 * r / r) with 2 by (field; lra). lra.
Qed.
Print Assumptions C49_function.

(** Five points on a cycle with radius 2: the first row. *)
Example C49_example :
  gc_matrix 5 2 0 0 = 1 /\ gc_matrix 5 2 0 1 = 263 / 384 /\ gc_matrix 5 2 0 2 = 5 / 24
  /\ gc_matrix 5 2 0 3 = 5 / 24 /\ gc_matrix 5 2 0 4 = 263 / 384 /\ gc_matrix 5 2 3 4 = 263 / 384.
Proof.
  unfold gc_matrix. cbn. unfold gc, Rltb, Rleb.
  repeat split; repeat (destruct Rlt_dec; try lra); repeat (destruct Rle_dec; try lra); cbn [andb];
    rewrite Rabs_right by lra; unfold gc_close, gc_mid; field.
Qed.

(** The radius must be positive: with radius zero the diagonal is zero. *)
Theorem C49_zero_radius_refuted : exists dim, (0 < dim)%Z /\ gc_matrix dim 0 0 0 = 0.
Proof.
  exists 3%Z. split; [lia|]. unfold gc_matrix. cbn. unfold gc, Rltb, Rleb.
  repeat (destruct Rlt_dec; try lra); repeat (destruct Rle_dec; try lra); reflexivity.
Qed.
Print Assumptions C49_zero_radius_refuted.

(** Though the function takes absolute values of its argument, it compares the
    signed argument with the radius: for negative arguments it is not the taper,
    and is unbounded below. *)
Theorem C49_negative_argument_refuted : exists z radius, 0 < radius /\ gc (- z) radius = 0 /\ gc z radius < -1.
Proof.
  exists (-3), 1. split; [lra|]. unfold gc, Rltb, Rleb. split.
  - repeat (destruct Rlt_dec; try lra); repeat (destruct Rle_dec; try lra); reflexivity.
  - repeat (destruct Rlt_dec; try lra); repeat (destruct Rle_dec; try lra). cbn [andb].
    rewrite Rabs_left by lra. unfold gc_close. lra.
Qed.
Print Assumptions C49_negative_argument_refuted.

(** * C82: positive semi-definiteness *)
(** With a radius of half of the number of points the taper is not positive
    semi-definite, so the product with a covariance need not be one. *)
Theorem C82_psd_refuted : exists dim radius a, 0 < radius /\ quad dim (gc_matrix (Z.of_nat dim) radius) a < 0.
Proof.
  exists 4%nat, 2, (fun i => if Nat.even i then 1 else -1). split; [lra|].
  assert (G0 : gc 0 2 = 1) by (apply C49_function; lra).
  assert (G2 : gc 2 2 = 5 / 24) by (apply C49_function; lra).
  assert (G1 : gc 1 2 = 263 / 384).
  { destruct C49_example as (_ & H & _). exact H. }
  unfold quad. cbn [sumn]. unfold gc_matrix. cbn. rewrite G0, G1, G2. lra.
Qed.
Print Assumptions C82_psd_refuted.

(** With a radius of at most one step (correlations between neighbours only)
    the taper is positive definite.  Missing: larger radii, where it depends on
    the dimension. *)
Theorem C82_psd_partial :
  forall dim radius a, 0 < radius <= 1 ->
  7 / 12 * sumn dim (fun i => a i * a i) <= quad dim (gc_matrix (Z.of_nat dim) radius) a.
Proof.
  intros d r a Hr. set (M := gc_matrix (Z.of_nat d) r).
  set (N := fun i j => if Nat.eqb i j then 0 else M (Z.of_nat i) (Z.of_nat j)).
  assert (MM : forall i j, (i < d)%nat -> (j < d)%nat -> M (Z.of_nat i) (Z.of_nat j) = M (Z.of_nat j) (Z.of_nat i)
     /\ M (Z.of_nat i) (Z.of_nat i) = 1 /\ 0 <= M (Z.of_nat i) (Z.of_nat j)).
  { intros i j Hi Hj. destruct (C49_matrix (Z.of_nat d) r ltac:(lra) (Z.of_nat i) (Z.of_nat j) ltac:(lia) ltac:(lia)) as (A & B & [C _] & _).
    auto. }
  assert (G : forall i j, (i < d)%nat -> (j < d)%nat -> i <> j ->
     M (Z.of_nat i) (Z.of_nat j) <= (if Z.eqb (Z.of_nat j) ((Z.of_nat i + 1) mod Z.of_nat d) then 5 / 24 else 0)
                                    + (if Z.eqb (Z.of_nat j) ((Z.of_nat i - 1) mod Z.of_nat d) then 5 / 24 else 0)).
  { intros i j Hi Hj Hij.
    destruct (C49_matrix (Z.of_nat d) r ltac:(lra) (Z.of_nat i) (Z.of_nat j) ltac:(lia) ltac:(lia)) as (_ & _ & _ & D & _).
    pose proof (gc_distance_cyclic (Z.of_nat d) (Z.of_nat i) (Z.of_nat j) ltac:(lia) ltac:(lia)) as Dij.
    destruct (D _ Dij) as (E & [Z0 _] & _). fold M in E, Z0.
    set (c := gc_distance (Z.of_nat d) (Z.of_nat i) (Z.of_nat j)) in *.
    assert (Hc : (0 < c)%Z).
    { destruct Dij as [[k Ek] _]. destruct (Z.eq_dec (Z.of_nat j - Z.of_nat i + k * Z.of_nat d) 0) as [Q|]; [|lia].
      exfalso. assert (k = 0 \/ 1 <= k \/ k <= -1)%Z as [->|[L|L]] by lia; nia. }
    destruct (Z_le_gt_dec 2 c) as [L|L].
    - rewrite Z0; [|pose proof (IZR_le _ _ L); lra].
      repeat destruct (Z.eqb _ _); lra.
    - assert (c1 : c = 1%Z) by lia.
      assert (U : M (Z.of_nat i) (Z.of_nat j) <= 5 / 24).
      { rewrite E, c1. destruct (C49_function r ltac:(lra)) as (_ & F & _ & <- & _). apply F; lra. }
      destruct Dij as [[k Ek] _]. rewrite c1 in Ek.
      assert (Z.of_nat j = (Z.of_nat i + 1) mod Z.of_nat d \/ Z.of_nat j = (Z.of_nat i - 1) mod Z.of_nat d)%Z as [Q|Q].
      { assert (Z.of_nat j - Z.of_nat i + k * Z.of_nat d = 1 \/ Z.of_nat j - Z.of_nat i + k * Z.of_nat d = -1)%Z as [Q|Q] by lia;
          [left; apply (Z.mod_unique _ _ k)|right; apply (Z.mod_unique _ _ k)]; lia. }
      + rewrite (proj2 (Z.eqb_eq _ _) Q). destruct (Z.eqb _ _); lra.
      + rewrite (proj2 (Z.eqb_eq _ _) Q). destruct (Z.eqb _ ((Z.of_nat i + 1) mod _)); lra. }
  pose proof (dominant_psd d N a (5 / 24 + 5 / 24)) as P.
  assert (Q : quad d M a = sumn d (fun i => a i * a i) + sumn d (fun i => sumn d (fun j => a i * N i j * a j))).
  { unfold quad. rewrite <- sumn_plus. apply sumn_ext. intros i Hi.
    transitivity (sumn d (fun j => (if Nat.eqb i j then a i * a j else 0) + a i * N i j * a j)).
    - apply sumn_ext. intros j Hj. unfold N. destruct (Nat.eqb_spec i j) as [->|]; [|ring].
      destruct (MM j j Hj Hj) as (_ & -> & _). ring.
    - rewrite sumn_plus, (sumn_diag d i (fun j => a i * a j) Hi). reflexivity. }
  rewrite Q. rewrite <- (Rplus_0_r (7 / 12 * _)).
  assert (- (5 / 24 + 5 / 24) * sumn d (fun i => a i * a i) <= sumn d (fun i => sumn d (fun j => a i * N i j * a j))); [|lra].
  apply P.
  - intros i j Hi Hj. unfold N. rewrite Nat.eqb_sym. destruct (Nat.eqb_spec j i) as [->|]; [split; lra|].
    destruct (MM i j Hi Hj) as (A & _ & B). auto.
  - intros i Hi. eapply Rle_trans; [|apply Rplus_le_compat; apply (sumn_hit d); lra].
    rewrite <- sumn_plus. apply sumn_le. intros j Hj. unfold N. destruct (Nat.eqb_spec i j) as [|Hij]; [|apply (G i j Hi Hj Hij)].
    repeat destruct (Z.eqb _ _); lra.
Qed.
Print Assumptions C82_psd_partial.
Example C82_psd_example : gc_matrix 5 1 0 4 = 5 / 24 /\ gc_matrix 5 1 0 2 = 0 /\ 0 < 1 <= 1.
Proof.
  unfold gc_matrix. cbn. unfold gc, Rltb, Rleb.
  repeat split; repeat (destruct Rlt_dec; try lra); repeat (destruct Rle_dec; try lra); cbn [andb]; try lra.
  rewrite Rabs_right by lra. unfold gc_mid; field.
Qed.
