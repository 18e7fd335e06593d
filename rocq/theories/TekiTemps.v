(** Lemmas on the temperatures of ensemble Kalman inversion. *)
From Coq Require Import Reals List Arith Lra Lia ZArith Bool.
From mathcomp Require matrix.
From Verif Require Import XR Keys RStruct LoopModel LoopSpec LoopProps McmcSpec McmcProofs WeightsModel WeightsSpec WeightsProofs
  BisectModel BisectProofs BisectProps TekiTempModel TekiModel TekiProofs.
Import ListNotations.
Open Scope R_scope.

(** ** Runs whose temperatures are a function of the iteration *)
Section Run.
  Variables n dx dy : nat.
  Notation mat a b := (matrix.matrix R a b).
  Variable lik : mat 1 dx -> key -> mat 1 dy.
  Variable normals : key -> mat n dy.
  Variable data : mat 1 dy.
  Variable nugget : R.
  Variable constrain : mat n dx -> mat n dx.
  Variable prior_std : fintype.ordinal dx -> R.
  Hypothesis Hd : (0 < dx)%nat.
  Variable tmax : R.
  Variable mi : nat.
  Variable init : tstate n dx dy * textra.
  Hypothesis Ht0 : temperature (fst init) = 0.
  Hypothesis Hi0 : t_iter (snd init) = 0%nat.

  Lemma iterate_iter next j : t_iter (snd (iterate (update lik normals data nugget next) j init)) = j.
  Proof. induction j as [|j IH]; [exact Hi0|]. cbn [iterate]. cbn. rewrite IH. reflexivity. Qed.

  Lemma iterate_temp (f : nat -> R) j :
    temperature (fst (iterate (update lik normals data nugget (fun _ it _ => f it)) j init))
    = match j with O => 0 | S _ => f j end.
  Proof.
    destruct j as [|j]; [exact Ht0|]. cbn [iterate].
    transitivity (f (S (t_iter (snd (iterate (update lik normals data nugget (fun _ it _ => f it)) j init))))); [reflexivity|].
    rewrite iterate_iter. reflexivity.
  Qed.

  Lemma run_temps (f : nat -> R) :
    let T := fun j => match j with O => 0 | S _ => f j end in
    exists m, (m <= mi)%nat
      /\ map (@temperature n dx dy)
           (teki_run lik normals data nugget (fun _ it _ => f it) constrain 0 prior_std tmax mi init)
         = map T (seq 0 (S m))
      /\ (forall j, (j < m)%nat -> T j < tmax)
      /\ (m = mi \/ tmax <= T m).
  Proof.
    cbv zeta. unfold teki_run.
    set (upd := update _ _ _ _ _). set (term := terminate _ _ _ _ _).
    destruct (C01_run_is_while_loop _ _ term upd init mi) as (m & ((Hm & Hc & Hs) & Hr) & _).
    assert (Tm : forall j, (j <= m)%nat -> (j < mi)%nat ->
       negb (term (fst (iterate upd j init)) (snd (iterate upd j init))) = true
       <-> match j with O => 0 | S _ => f j end < tmax).
    { intros j _ Hj. unfold term. rewrite terminateE by (exact (ssrbool.introT ssrnat.ltP Hd)).
      unfold upd. rewrite iterate_iter, iterate_temp.
      replace (Nat.leb mi j) with false by (symmetry; apply Nat.leb_gt; exact Hj).
      rewrite orb_false_r, negb_true_iff, Rleb_false. tauto. }
    exists m. split; [exact Hm|]. split; [|split].
    - rewrite Hr, map_map. apply map_ext. intros j. apply iterate_temp.
    - intros j Hj. apply Tm; [lia|lia|]. apply Hc, Hj.
    - destruct (Nat.eq_dec m mi) as [E|E]; [auto|]. right. destruct Hs as [Hs|Hs]; [contradiction|].
      apply Rnot_lt_le. intros C. apply Tm in C; [congruence|lia|lia].
  Qed.
End Run.

(** ** Rounding *)
Lemma round_even_near x : Rabs (IZR (round_even x) - x) <= 1 / 2.
Proof.
  unfold round_even. cbv zeta. destruct (base_Int_part x) as [A B].
  assert (F : frac_part x = x - IZR (Int_part x)) by reflexivity.
  unfold Rltb. destruct (Rlt_dec (frac_part x) (1 / 2)) as [C|C].
  - apply Rabs_le. lra.
  - destruct (Rlt_dec (1 / 2) (frac_part x)) as [D|D].
    + rewrite plus_IZR. apply Rabs_le. lra.
    + destruct (Z.even _); [|rewrite plus_IZR]; apply Rabs_le; lra.
Qed.

Lemma round4_near x : x - / 20000 <= round4 x <= x + / 20000.
Proof.
  unfold round4. pose proof (round_even_near (x * 10000)) as H. unfold Rabs in H. destruct (Rcase_abs _); lra.
Qed.

Lemma round4_grid x : exists z, round4 x = IZR z / 10000.
Proof. eexists; reflexivity. Qed.

Lemma round4_int z : round4 (IZR z) = IZR z.
Proof.
  destruct (round4_grid (IZR z)) as (y & E). pose proof (round4_near (IZR z)) as H. rewrite E in *.
  assert (y = z * 10000)%Z.
  { assert (A : IZR (y - z * 10000) < 1) by (rewrite minus_IZR, mult_IZR; lra).
    assert (B : -1 < IZR (y - z * 10000)) by (rewrite minus_IZR, mult_IZR; lra).
    apply lt_IZR in A. apply lt_IZR in B. lia. }
  subst y. rewrite mult_IZR. lra.
Qed.

(** ** The default temperatures *)
Lemma ln2_half : / 2 < ln 2.
Proof.
  rewrite <- (ln_exp (/ 2)). apply ln_increasing; [apply exp_pos|].
  assert (A : 1 + - / 4 < exp (- / 4)) by (apply exp_ineq1; lra).
  assert (B : exp (- / 4) * exp (- / 4) = exp (- / 2)) by (rewrite <- exp_plus; f_equal; lra).
  assert (C : exp (- / 2) * exp (/ 2) = 1) by (rewrite <- exp_plus, <- exp_0; f_equal; lra).
  assert (0 < exp (/ 2)) by apply exp_pos. nra.
Qed.

Lemma root50 : 101 / 100 < Rpower 2 (1 / 50) < 2.
Proof.
  split.
  - unfold Rpower. pose proof ln2_half. apply Rlt_trans with (1 + 1 / 50 * ln 2); [lra|]. apply exp_ineq1. lra.
  - rewrite <- (Rpower_1 2) at 2 by lra. apply Rpower_lt; lra.
Qed.

Lemma pow50_ge1 k : 1 <= Rpower 2 (INR k / 50).
Proof.
  rewrite <- (Rpower_O 2) by lra. apply Rle_Rpower; [lra|]. pose proof (pos_INR k). lra.
Qed.

Lemma pow50_S k : Rpower 2 (INR (S k) / 50) = Rpower 2 (INR k / 50) * Rpower 2 (1 / 50).
Proof. rewrite <- Rpower_plus. f_equal. rewrite S_INR. lra. Qed.

Lemma default_step k : default_temperature k + 99 / 10000 <= default_temperature (S k).
Proof.
  unfold default_temperature. rewrite pow50_S.
  pose proof (round4_near (Rpower 2 (INR k / 50) - 1)) as A.
  pose proof (round4_near (Rpower 2 (INR k / 50) * Rpower 2 (1 / 50) - 1)) as B.
  pose proof (pow50_ge1 k). pose proof root50. nra.
Qed.

Lemma default_0 : default_temperature 0 = 0.
Proof.
  unfold default_temperature. replace (INR 0 / 50) with 0 by (cbn; lra). rewrite Rpower_O by lra.
  replace (1 - 1) with (IZR 0) by lra. apply round4_int.
Qed.
Lemma default_50 : default_temperature 50 = 1.
Proof.
  unfold default_temperature. replace (INR 50 / 50) with 1 by (rewrite INR_IZR_INZ; cbn; lra).
  rewrite Rpower_1 by lra. replace (2 - 1) with (IZR 1) by lra. apply round4_int.
Qed.
Lemma default_lt j k : (j < k)%nat -> default_temperature j < default_temperature k.
Proof. induction 1 as [|k Hk IH]; [pose proof (default_step j); lra|]. pose proof (default_step k). lra. Qed.
Lemma default_third k : default_temperature k <> 1 / 3.
Proof.
  unfold default_temperature. destruct (round4_grid (Rpower 2 (INR k / 50) - 1)) as (z & ->). intros E.
  assert (F : IZR (3 * z) = IZR 10000) by (rewrite mult_IZR; lra). apply eq_IZR in F. lia.
Qed.

(** ** The root finder on a function that is positive on the left *)
Lemma bisect_progress (f : R -> R) (tol : R) (mb : nat) (t tmax : R) :
  0 < tol -> t < tmax -> tol <= f t -> f tmax < f t ->
  (biter (bisect f mb tol t tmax) < mb)%nat ->
  let r := bisect f mb tol t tmax in
  let x := if Rleb (Rabs (e0 r)) (Rabs (e1 r)) then b0 r else b1 r in
  t < x /\ ((x = tmax /\ 0 < f tmax) \/ Rabs (f x) < tol).
Proof.
  intros Ht Hlt Ft Hdec Hit. cbv zeta.
  destruct (C18_bisect f mb tol t tmax Ht) as ((E0 & E1) & (B0 & B1) & _ & Hsg & _ & Hst & _).
  destruct (bisect_run f mb tol Ht t tmax) as (k & Ek & Bk & _ & _ & Inv).
  set (r := bisect f mb tol t tmax) in *.
  rewrite Rmin_left, Rmax_right in B0, B1 by lra.
  assert (Close : (Rabs (f (b0 r)) < tol \/ Rabs (f (b1 r)) < tol) ->
     t < (if Rleb (Rabs (e0 r)) (Rabs (e1 r)) then b0 r else b1 r)
     /\ Rabs (f (if Rleb (Rabs (e0 r)) (Rabs (e1 r)) then b0 r else b1 r)) < tol).
  { intros C.
    assert (C' : Rabs (f (if Rleb (Rabs (e0 r)) (Rabs (e1 r)) then b0 r else b1 r)) < tol).
    { rewrite E0, E1. unfold Rleb. destruct (Rle_dec _ _); destruct C; lra. }
    split; [|exact C'].
    assert (G : t <= (if Rleb (Rabs (e0 r)) (Rabs (e1 r)) then b0 r else b1 r)) by (destruct (Rleb _ _); lra).
    destruct G as [G|G]; [exact G|]. exfalso. rewrite <- G in C'. rewrite Rabs_right in C'; lra. }
  destruct Hst as [C|[C|[C|C]]].
  - destruct (Close (or_introl C)); auto.
  - destruct (Close (or_intror C)); auto.
  - lia.
  - destruct k as [|k].
    + cbn in Ek. rewrite Ek. cbn [b0 b1 e0 e1 bisect_init].
      assert (Q : f tmax > 0).
      { rewrite Ek in C. cbn in C. apply Rmult_lt_reg_l with (f t); lra. }
      assert (X : Rleb (Rabs (f t)) (Rabs (f tmax)) = false).
      { apply Rleb_false. rewrite !Rabs_right by lra. exact Hdec. }
      rewrite X. auto.
    + specialize (Inv (Nat.lt_0_succ k) (S k) (Nat.le_refl _)). rewrite <- Ek in Inv.
      destruct Inv as (I0 & I1 & _ & _ & _ & _ & S).
      rewrite <- I0, <- I1 in C. destruct (bisect_increasing f t tmax); nra.
Qed.

Lemma bisect_between (f : R -> R) (tol : R) (mb : nat) (t tmax : R) : 0 < tol -> t <= tmax ->
  let r := bisect f mb tol t tmax in
  t <= (if Rleb (Rabs (e0 r)) (Rabs (e1 r)) then b0 r else b1 r) <= tmax.
Proof.
  intros Ht Hle. cbv zeta. destruct (C18_bisect f mb tol t tmax Ht) as (_ & (B0 & B1) & _).
  rewrite Rmin_left, Rmax_right in B0, B1 by exact Hle. destruct (Rleb _ _); assumption.
Qed.

(** ** The effective sample size *)
Lemma ess_objective_kish n dx dy data thr (s : tstate n dx dy) prec x : (0 < n)%nat ->
  let l := pseudo_potentials data (simulated s) prec in
  ess_objective data thr s prec x
  = ln (kish (map (fun v => exp (- (x - temperature s) * v)) l)) - ln (INR n * thr).
Proof.
  intros Hn. cbv zeta. unfold ess_objective.
  set (l := pseudo_potentials data (simulated s) prec).
  assert (L : length l = n).
  { unfold l, pseudo_potentials. rewrite map_length. exact (fintype.size_enum_ord n). }
  change (seq.size l) with (length l). rewrite L.
  change (ssralg.GRing.add ?a (ssralg.GRing.opp ?b)) with (a - b). f_equal.
  set (lw := seq.map (fun v => Fin (- (x - temperature s) * v)) l).
  assert (Ok : lw_ok lw).
  { unfold lw. split.
    - apply Forall_forall. intros z Hz. apply in_map_iff in Hz. destruct Hz as (a & <- & _). right. eexists; reflexivity.
    - destruct l; [cbn in L; lia|]. left. eexists; reflexivity. }
  assert (W : weights lw = map (fun v => exp (- (x - temperature s) * v)) l).
  { unfold weights, lw. rewrite map_map. apply map_ext. reflexivity. }
  rewrite log_ess_fin by exact Ok. cbn [fin_part].
  pose proof (weights_sum_pos lw (proj2 Ok)) as P. pose proof (sq_sum_pos _ (weights_pos lw (proj2 Ok))) as Q.
  rewrite <- W. unfold kish, Rdiv. rewrite ln_mult, ln_Rinv by (auto; try apply pow_lt; auto; apply Rinv_0_lt_compat; auto).
  replace (Rsum (weights lw) ^ 2) with (Rsum (weights lw) * Rsum (weights lw)) by ring. rewrite ln_mult by auto. lra.
Qed.
