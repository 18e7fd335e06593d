(** Properties of runs of Stein variational gradient descent. *)
From Coq Require Import Reals List Arith Lia Lra Permutation FunctionalExtensionality.
From Coquelicot Require Import Coquelicot.
From Verif Require Import Keys McmcModel LoopModel LoopSpec LoopProofs LoopProps KernelModel KernelSpec KernelProofs KernelPsd KernelProps.
From Verif Require Import SvgdModel SvgdSpec SvgdProofs.
Import ListNotations.
Open Scope R_scope.

Lemma lsum_fold l f : lsum l f = fold_right Rplus 0 (map f l).
Proof. unfold lsum. induction l as [|a l IH]; cbn; [reflexivity|]. rewrite IH. reflexivity. Qed.
Lemma direction_eq K x g b i c : kernelised_grad K x g b i c = stein_direction K x g (b i) i c.
Proof.
  unfold kernelised_grad, stein_direction, batch_average. rewrite lsum_fold. do 2 f_equal.
  apply map_ext. intros j. ring.
Qed.
Lemma total_vsum n f : total n f = vsum n f.
Proof. unfold total. rewrite <- lsum_fold. apply lsum_seq. Qed.
Lemma distance_eq d x y : distance d x y = l2_dist d x y.
Proof. unfold distance, l2_dist. f_equal. apply total_vsum. Qed.
Lemma sq_sum_vsum t g : sq_sum t g = vsum t (fun s => g s ^ 2).
Proof. induction t as [|t IH]; cbn; [reflexivity|]. rewrite IH. reflexivity. Qed.

(** C92: a run has one state per iteration and the initial one, starts at the
    given particles, evaluates the potential and its gradient at its own
    particles with keys never used twice (and not used for a batch), and each
    move is one step of the optimiser against the Stein direction of the
    previous state. *)
Theorem C92_run : forall n k, exists (pk : nat -> nat -> key) (bk : nat -> key),
  fresh_keys n pk bk /\
  forall O (opt : optimiser O) pg KP (kern : KP -> kernel) adapt batch x0 kp m s0,
  let r := svgd_run n O opt pg KP kern adapt batch x0 kp k m in
  let s j := nth j r s0 in
  length r = S m /\ value (s 0%nat) = x0 /\ kparams (s 0%nat) = adapt x0 kp
  /\ (forall j i, (j <= m)%nat -> (potential (s j) i, grad (s j) i) = pg (value (s j) i) (pk j i))
  /\ (forall j, (j < m)%nat -> kparams (s (S j)) = adapt (value (s (S j))) (kparams (s j)))
  /\ exists os : nat -> O, os 0%nat = opt_init opt x0
     /\ forall j, (j < m)%nat ->
        os (S j) = opt_update opt (S j)
          (fun i c => - stein_direction (kern (kparams (s j))) (value (s j)) (grad (s j)) (batch (bk j) i) i c) (os j)
        /\ value (s (S j)) = get_params opt (os (S j)).
Proof.
  intros n k. exists (pkey n k), (bkey n k).
  split.
  { split; [intros j i j' i' _ _; apply pkey_inj|]. split; [apply bkey_inj|]. intros. apply pkey_bkey. assumption. }
  intros O opt pg KP kern adapt batch x0 kp m s0 r s.
  assert (N : forall j, (j <= m)%nat -> s j = fst (iterate (svgd_update n O opt pg KP kern adapt batch) j
                 (svgd_start n O opt pg KP adapt x0 kp k))).
  { intros j Hj. apply run_nth, Hj. }
  split; [apply run_length|]. split; [rewrite N by lia; reflexivity|]. split; [rewrite N by lia; reflexivity|].
  split.
  { intros j i Hj. rewrite (N j Hj).
    destruct (it_pg n O opt pg KP kern adapt batch x0 kp k j i) as [-> ->]. symmetry. apply surjective_pairing. }
  split.
  { intros j Hj. rewrite (N (S j)), (N j) by lia. reflexivity. }
  exists (fun j => opt_state (snd (iterate (svgd_update n O opt pg KP kern adapt batch) j
                 (svgd_start n O opt pg KP adapt x0 kp k)))).
  split; [reflexivity|]. intros j Hj. rewrite (N (S j)), (N j) by lia.
  cbn [iterate svgd_update snd fst opt_state value]. rewrite it_iter, it_key. split; [|reflexivity].
  f_equal. extensionality i. extensionality c. f_equal. apply direction_eq.
Qed.
Print Assumptions C92_run.

(** Without an initial state the particles are drawn from the prior, each with
    a key of its own that is not used for the potentials or the batches. *)
Theorem C92_initial : forall n k0 prior normal,
  let '(x0, k) := initial_values (Some prior) normal n k0 in
  exists (ik : nat -> key) (pk : nat -> nat -> key) (bk : nat -> key),
  fresh_keys n pk bk
  /\ (forall i i', (i < n)%nat -> (i' < n)%nat -> ik i = ik i' -> i = i')
  /\ (forall i j i', (i < n)%nat -> (i' < n)%nat -> ik i <> pk j i' /\ ik i <> bk j)
  /\ (forall i, x0 i = prior (ik i))
  /\ forall O (opt : optimiser O) pg KP (kern : KP -> kernel) adapt batch kp m s0 j i, (j <= m)%nat ->
     let s := nth j (svgd_run n O opt pg KP kern adapt batch x0 kp k m) s0 in
     (potential s i, grad s i) = pg (value s i) (pk j i).
Proof.
  intros n k0 prior normal. cbn [initial_values].
  exists (fun i => KSplit (KSplit k0 2 1) n i), (pkey n (KSplit k0 2 0)), (bkey n (KSplit k0 2 0)).
  split.
  { split; [intros j i j' i' _ _; apply pkey_inj|]. split; [apply bkey_inj|]. intros. apply pkey_bkey. assumption. }
  split; [intros i i' _ _ E; injection E; trivial|]. split.
  { intros i j i' _ _. split; intros E.
    - destruct j as [|j]; [cbn in E; injection E; discriminate|]. apply (f_equal depth) in E. rewrite depth_pkey in E. cbn in E. lia.
    - apply (f_equal depth) in E. rewrite depth_bkey in E. cbn in E. lia. }
  split; [reflexivity|]. intros O opt pg KP kern adapt batch kp m s0 j i Hj. rewrite run_nth by exact Hj.
  destruct (it_pg n O opt pg KP kern adapt batch (fun i => prior (KSplit (KSplit k0 2 1) n i)) kp (KSplit k0 2 0) j i) as [E1 E2].
  rewrite E1, E2. symmetry. apply surjective_pairing.
Qed.
Print Assumptions C92_initial.

(** The default bandwidth is the mean distance of all pairs over sqrt(2 ln n);
    it is positive at every state with at least two particles that are not all
    at one point. *)
Theorem C92_bandwidth_partial : forall d n step pg x0 b k m s0 j c, (2 <= n)%nat -> (j <= m)%nat ->
  let r := svgd_default d n step pg x0 b k m in
  let x := value (nth j r s0) in
  0 < sqrt (2 * ln (INR n))
  /\ kparams (nth j r s0) c = total n (fun i => total n (fun l => distance d (x i) (x l))) / INR n ^ 2 / sqrt (2 * ln (INR n))
  /\ ((exists i l e, (i < n)%nat /\ (l < n)%nat /\ (e < d)%nat /\ x i e <> x l e) -> 0 < kparams (nth j r s0) c).
Proof.
  intros d n step pg x0 b k m s0 j c Hn Hj r x.
  assert (N : nth j r s0 = fst (iterate (svgd_update n ada (adagrad step (9 / 10)) pg vec (gaussian d) (adapt_bandwidth_mean d n)
     (fun _ => full_batch n)) j (svgd_start n ada (adagrad step (9 / 10)) pg vec (adapt_bandwidth_mean d n) x0 b k)))
    by (apply run_nth, Hj).
  assert (K : kparams (nth j r s0) c = mean_bandwidth d n x).
  { unfold x. rewrite N. destruct j; reflexivity. }
  assert (Hn1 : 1 < INR n) by (apply (lt_INR 1 n); lia).
  assert (L : 0 < sqrt (2 * ln (INR n))).
  { apply sqrt_lt_R0. apply Rmult_lt_0_compat; [lra|]. rewrite <- ln_1. apply ln_increasing; lra. }
  split; [exact L|]. rewrite K. split.
  { symmetry. unfold mean_bandwidth. rewrite total_vsum.
    rewrite (vsum_ext n _ (fun i => vsum n (fun l => l2_dist d (x i) (x l)))).
    - replace (INR n ^ 2) with (INR n * INR n) by ring. reflexivity.
    - intros i _. rewrite total_vsum. apply vsum_ext. intros. apply distance_eq. }
  intros (i & l & e & Hi & Hl & He & Hx). unfold mean_bandwidth.
  assert (P : forall y z, 0 <= l2_dist d y z) by (intros; apply sqrt_pos).
  apply Rdiv_lt_0_compat; [|exact L]. apply Rdiv_lt_0_compat; [|nra].
  assert (Q : forall k f p, (forall q, 0 <= f q) -> (p < k)%nat -> f p <= vsum k f).
  { intros k0 f p Hf. induction k0 as [|k0 IH]; intros Hp; [lia|]. cbn [vsum].
    assert (0 <= vsum k0 f) by (apply vsum_nonneg; auto). specialize (Hf k0).
    destruct (Nat.eq_dec p k0) as [->|]; [lra|]. specialize (IH ltac:(lia)). lra. }
  apply Rlt_le_trans with (l2_dist d (x i) (x l)).
  - unfold l2_dist. apply sqrt_lt_R0.
    apply Rlt_le_trans with ((x i e - x l e) ^ 2); [nra|].
    apply (Q d (fun c0 => (x i c0 - x l c0) ^ 2) e); [intros; apply pow2_ge_0|exact He].
  - apply Rle_trans with (vsum n (fun l0 => l2_dist d (x i) (x l0))).
    + apply (Q n (fun l0 => l2_dist d (x i) (x l0)) l); auto.
    + apply (Q n (fun i0 => vsum n (fun l0 => l2_dist d (x i0) (x l0))) i); [|exact Hi]. intros. apply vsum_nonneg. auto.
Qed.
Print Assumptions C92_bandwidth_partial.

(** With one particle the default bandwidth is 0/0; with two particles at one
    point it is zero, and the kernel divides by it. *)
Theorem C92_bandwidth_refuted :
  (forall d x, total 1 (fun i => total 1 (fun l => distance d (x i) (x l))) = 0 /\ sqrt (2 * ln (INR 1)) = 0)
  /\ exists d n step pg x0 b k s0, (2 <= n)%nat /\ (0 < d)%nat
     /\ forall m j c, (j <= m)%nat -> kparams (nth j (svgd_default d n step pg x0 b k m) s0) c = 0.
Proof.
  assert (Z : forall d x, l2_dist d x x = 0).
  { intros. unfold l2_dist. rewrite (vsum_ext d _ (fun _ => 0)) by (intros; ring). rewrite vsum_const, Rmult_0_r. apply sqrt_0. }
  split.
  { intros d x. split; [cbn; rewrite distance_eq, Z; ring|]. change (INR 1) with 1. rewrite ln_1, Rmult_0_r. apply sqrt_0. }
  exists 1%nat, 2%nat, (fun _ => 1), (fun x _ => (x 0%nat ^ 2 / 2, x)), (fun _ _ => 0), (fun _ => 1), (KRoot 0), (Est (fun _ _ => 0) (fun _ => 0) (fun _ _ => 0) (fun _ => 0)).
  split; [lia|]. split; [lia|]. intros m j c Hj.
  unfold svgd_default. rewrite run_nth by exact Hj.
  set (upd := svgd_update _ _ _ _ _ _ _ _). set (ini := svgd_start _ _ _ _ _ _ _ _ _).
  (* the two particles keep the same value and optimiser entries *)
  assert (I : forall j, let p := iterate upd j ini in
     (forall c, value (fst p) 0%nat c = value (fst p) 1%nat c) /\ (forall c, ada_sq (opt_state (snd p)) 0%nat c = ada_sq (opt_state (snd p)) 1%nat c)
     /\ (forall c, ada_m (opt_state (snd p)) 0%nat c = ada_m (opt_state (snd p)) 1%nat c)
     /\ value (fst p) = ada_x (opt_state (snd p))).
  { intros j0. induction j0 as [|j0 IH]; [repeat split|]. cbn [iterate]. cbv zeta in IH |- *.
    set (p := iterate upd j0 ini) in *. destruct IH as (V & Q & M & X).
    assert (G : forall c, kernelised_grad (gaussian 1 (kparams (fst p))) (value (fst p)) (grad (fst p)) (full_batch 2) 0%nat c
                        = kernelised_grad (gaussian 1 (kparams (fst p))) (value (fst p)) (grad (fst p)) (full_batch 2) 1%nat c).
    { intros c0. unfold kernelised_grad, full_batch. f_equal. rewrite !lsum_seq. apply vsum_ext. intros l _.
      assert (E : value (fst p) 0%nat = value (fst p) 1%nat) by (extensionality q; apply V). rewrite E. reflexivity. }
    unfold upd, svgd_update. cbn [fst snd value opt_state adagrad opt_update get_params adagrad_update ada_x ada_sq ada_m].
    repeat split; intros c0; rewrite <- ?X, ?V, ?Q, ?M, ?G; reflexivity. }
  assert (K : kparams (fst (iterate upd j ini)) c = mean_bandwidth 1 2 (value (fst (iterate upd j ini)))) by (destruct j; reflexivity).
  rewrite K. destruct (I j) as (V & _). revert V. cbv zeta. set (x := value _). intros V.
  assert (E : x 0%nat = x 1%nat) by (extensionality q; apply V).
  unfold mean_bandwidth. cbn [vsum]. rewrite E, Z. unfold Rdiv. ring.
Qed.
Print Assumptions C92_bandwidth_refuted.

(** Two particles at 0 and 1 on the line: the bandwidth of the initial state. *)
Example C92_example : forall pg b k s0,
  let r := svgd_default 1 2 (fun _ => 1) pg (fun i _ => INR i) b k 5 in
  length r = 6%nat /\ kparams (nth 0 r s0) 0%nat = 1 / 2 / sqrt (2 * ln 2) /\ 0 < kparams (nth 0 r s0) 0%nat.
Proof.
  intros pg b k s0 r. split; [apply run_length|].
  destruct (C92_bandwidth_partial 1 2 (fun _ => 1) pg (fun i _ => INR i) b k 5 s0 0 0 (le_n 2) (Nat.le_0_l 5)) as (_ & E & P).
  assert (V : value (nth 0 (svgd_default 1 2 (fun _ => 1) pg (fun i _ => INR i) b k 5) s0) = fun i _ => INR i).
  { unfold svgd_default. rewrite run_nth by lia. reflexivity. }
  cbv zeta in E, P. rewrite V in E, P. split.
  - unfold r. rewrite E. unfold total, distance. cbn [map seq fold_right INR].
    replace ((0 - 0) ^ 2 + 0) with 0 by ring. replace ((0 - 1) ^ 2 + 0) with 1 by ring. replace ((1 - 0) ^ 2 + 0) with 1 by ring.
    replace ((1 - 1) ^ 2 + 0) with 0 by ring. rewrite sqrt_0, sqrt_1. unfold Rdiv. f_equal. field.
  - apply P. exists 0%nat, 1%nat, 0%nat. cbn. repeat split; try lia. lra.
Qed.

(** C93: adagrad is AdaGrad with momentum for every entry on its own: the
    closed form with the root of the sum of squares whenever the first gradient
    of the entry is not zero. *)
Theorem C93_adagrad : forall step mom x0 g t p c, g 0%nat p c <> 0 ->
  ada_x (ada_iter step mom x0 g t) p c = position step mom (x0 p c) (fun s => g s p c) t.
Proof.
  intros step mom x0 g t p c H0.
  assert (P : forall t, 0 < vsum (S t) (fun s => g s p c ^ 2)).
  { intros t0. induction t0 as [|t0 IH]; cbn [vsum] in *; [nra|]. assert (Q := pow2_ge_0 (g (S t0) p c)). lra. }
  assert (M : forall t, ada_m (ada_iter step mom x0 g t) p c = momentum mom (fun s => g s p c) t).
  { intros t0. induction t0 as [|t0 IH]; [reflexivity|]. rewrite ada_m_rec, IH.
    destruct (Rlt_dec _ _) as [_|n0]; [|destruct (n0 (P t0))].
    cbn [momentum]. unfold scaled. rewrite sq_sum_vsum. cbn [vsum]. unfold Rdiv. ring. }
  induction t as [|t IH]; [reflexivity|]. rewrite ada_step, IH, M. reflexivity.
Qed.
Print Assumptions C93_adagrad.

(** No move is longer than the step size: the scaled gradients are at most one
    in absolute value, so after t steps the momentum is at most 1 - mom^t. *)
Theorem C93_bounded : forall step mom x0 g t p c, 0 <= mom <= 1 ->
  Rabs (ada_x (ada_iter step mom x0 g (S t)) p c - ada_x (ada_iter step mom x0 g t) p c) <= Rabs (step (S t)) * (1 - mom ^ S t).
Proof.
  intros step mom x0 g t p c Hm. rewrite ada_step.
  replace (ada_x _ p c - _ - _) with (- (step (S t) * ada_m (ada_iter step mom x0 g (S t)) p c)) by ring.
  rewrite Rabs_Ropp, Rabs_mult. apply Rmult_le_compat_l; [apply Rabs_pos|]. apply ada_m_le, Hm.
Qed.
Print Assumptions C93_bounded.

(** Entries are independent of each other and of the unit of their gradients;
    an entry whose gradients are all zero never moves. *)
Theorem C93_entries : forall step mom x0 y0 g h t p q c e a, 0 < a -> y0 q e = x0 p c ->
  (forall s, h s q e = a * g s p c) ->
  ada_x (ada_iter step mom y0 h t) q e = ada_x (ada_iter step mom x0 g t) p c.
Proof.
  intros step mom x0 y0 g h t p q c e a Ha H0 Hg.
  assert (M : forall t, ada_m (ada_iter step mom y0 h t) q e = ada_m (ada_iter step mom x0 g t) p c).
  { intros t0. induction t0 as [|t0 IH]; [reflexivity|]. rewrite !ada_m_rec, IH. f_equal. f_equal.
    rewrite (vsum_ext (S t0) (fun s => h s q e ^ 2) (fun s => a ^ 2 * g s p c ^ 2)) by (intros; rewrite Hg; ring).
    rewrite vsum_scal, Hg. apply inv_scaled, Ha. }
  induction t as [|t IH]; [exact H0|]. rewrite !ada_step, IH, M. reflexivity.
Qed.
Print Assumptions C93_entries.
Theorem C93_zero_gradient : forall step mom x0 g t p c, (forall s, g s p c = 0) ->
  ada_x (ada_iter step mom x0 g t) p c = x0 p c.
Proof.
  intros step mom x0 g t p c H.
  assert (M : forall t, ada_m (ada_iter step mom x0 g t) p c = 0).
  { intros t0. induction t0 as [|t0 IH]; [reflexivity|]. rewrite ada_m_rec, IH, H. ring. }
  induction t as [|t IH]; [reflexivity|]. rewrite ada_step, M, IH. ring.
Qed.
Print Assumptions C93_zero_gradient.

(** For a run of SVGD with the default optimiser, whatever the potential: every
    coordinate of every particle moves by at most the step size times
    1 - 0.9^(j+1) per iteration, and the first move is exactly a tenth of the
    step size along the sign of the Stein direction. *)
Theorem C93_svgd : forall d n step pg x0 b k m s0 j i c, (j < m)%nat ->
  let r := svgd_default d n step pg x0 b k m in
  let x j := value (nth j r s0) in
  Rabs (x (S j) i c - x j i c) <= Rabs (step (S j)) * (1 - (9 / 10) ^ S j)
  /\ Rabs (x (S j) i c - x0 i c) <= total (S j) (fun t => Rabs (step (S t)))
  /\ let v := stein_direction (gaussian d (kparams (nth 0 r s0))) x0 (grad (nth 0 r s0)) (seq 0 n) i c in
     x 1%nat i c = x0 i c + step 1%nat / 10 * sign v.
Proof.
  intros d n step pg x0 b k m s0 j i c Hj r x.
  set (upd := svgd_update n ada (adagrad step (9 / 10)) pg vec (gaussian d) (adapt_bandwidth_mean d n) (fun _ => full_batch n)).
  set (ini := svgd_start n ada (adagrad step (9 / 10)) pg vec (adapt_bandwidth_mean d n) x0 b k).
  set (g := fun t i c => - kernelised_grad (gaussian d (kparams (fst (iterate upd t ini)))) (value (fst (iterate upd t ini)))
                 (grad (fst (iterate upd t ini))) (full_batch n) i c).
  assert (N : forall t, (t <= m)%nat -> nth t r s0 = fst (iterate upd t ini)) by (intros t Ht; apply run_nth, Ht).
  assert (A : forall t, opt_state (snd (iterate upd t ini)) = ada_iter step (9 / 10) x0 g t).
  { intros t. induction t as [|t IH]; [reflexivity|]. cbn [iterate]. unfold upd at 1, svgd_update.
    cbn [snd opt_state adagrad opt_update ada_iter]. rewrite IH.
    replace (iter (snd (iterate upd t ini))) with t by (symmetry; apply it_iter). reflexivity. }
  assert (X : forall t, (t <= m)%nat -> x t = ada_x (ada_iter step (9 / 10) x0 g t)).
  { intros t Ht. unfold x. rewrite N by exact Ht. destruct t as [|t]; [reflexivity|]. rewrite <- A. reflexivity. }
  assert (B : forall t, (S t <= m)%nat -> Rabs (x (S t) i c - x t i c) <= Rabs (step (S t)) * (1 - (9 / 10) ^ S t)).
  { intros t Ht. rewrite !X by lia. apply C93_bounded. lra. }
  split; [apply B; lia|]. split.
  { assert (C : forall t, (t <= m)%nat -> Rabs (x t i c - x0 i c) <= total t (fun t => Rabs (step (S t)))).
    { intros t. induction t as [|t IH]; intros Ht.
      - rewrite X by lia. cbn. unfold Rminus. rewrite Rplus_opp_r, Rabs_R0. unfold total. cbn. lra.
      - specialize (IH ltac:(lia)). specialize (B t Ht). rewrite total_vsum in *. cbn [vsum].
        replace (x (S t) i c - x0 i c) with ((x t i c - x0 i c) + (x (S t) i c - x t i c)) by ring.
        eapply Rle_trans; [apply Rabs_triang|]. apply Rplus_le_compat; [exact IH|].
        eapply Rle_trans; [exact B|]. assert (0 < (9 / 10) ^ S t) by (apply pow_lt; lra).
        assert (P := Rabs_pos (step (S t))). nra. }
    apply C. lia. }
  intros v. assert (Ev : g 0%nat i c = - v).
  { unfold g, v. rewrite direction_eq, N by lia. reflexivity. }
  rewrite X by lia. rewrite ada_step, ada_m_rec. cbn [vsum ada_iter adagrad_init ada_x ada_m].
  rewrite Ev, Rplus_0_l.
  destruct (total_order_T 0 v) as [[H|H]|H].
  - rewrite (sign_eq_1 v H). destruct (Rlt_dec _ _) as [_|q]; [|exfalso; apply q; nra].
    replace ((- v) ^ 2) with (v ^ 2) by ring. rewrite sqrt_pow2 by lra. field. lra.
  - rewrite <- H, sign_0. ring.
  - rewrite (sign_eq_m1 v H). destruct (Rlt_dec _ _) as [_|q]; [|exfalso; apply q; nra].
    rewrite sqrt_pow2 by lra. field. lra.
Qed.
Print Assumptions C93_svgd.

(** Two particles at 0 and 1 and the standard normal potential: the first
    particle moves a tenth of the step to the left. *)
Example C93_example : forall s0,
  value (nth 1 (svgd_default 1 2 (fun _ => 1) (fun x _ => (x 0%nat ^ 2 / 2, x)) (fun i _ => INR i) (fun _ => 1) (KRoot 0) 5) s0) 0%nat 0%nat
  = - (1 / 10).
Proof.
  intros s0.
  destruct (C93_svgd 1 2 (fun _ => 1) (fun x _ => (x 0%nat ^ 2 / 2, x)) (fun i _ => INR i) (fun _ => 1) (KRoot 0) 5 s0 0 0 0 ltac:(lia)) as (_ & _ & H).
  cbv zeta in H. rewrite H. clear H. unfold svgd_default. rewrite run_nth by lia.
  cbn [iterate]. unfold svgd_start. cbn [fst kparams grad snd].
  assert (S0 : 0 < sqrt (2 * ln (INR 2))).
  { apply sqrt_lt_R0. apply Rmult_lt_0_compat; [lra|]. rewrite <- ln_1. apply ln_increasing; cbn; lra. }
  rewrite sign_eq_m1; [cbn; lra|].
  unfold stein_direction, batch_average. cbn [map seq fold_right length].
  set (b := adapt_bandwidth_mean 1 2 _ _). assert (Hb : 0 < b 0%nat).
  { unfold b, adapt_bandwidth_mean, mean_bandwidth, l2_dist. cbn [vsum INR]. apply Rdiv_lt_0_compat; [|exact S0].
    replace (0 + (0 - 0) ^ 2) with 0 by ring. replace (0 + (0 - 1) ^ 2) with 1 by ring. replace (0 + (1 - 0) ^ 2) with 1 by ring.
    replace (0 + (1 - 1) ^ 2) with 0 by ring. rewrite sqrt_0, sqrt_1. lra. }
  cbn [gaussian k_grad_x k_call]. unfold gaussian_grad_x. set (k0 := gaussian_call _ _ (fun _ => INR 0) _). set (k1 := gaussian_call _ _ (fun _ => INR 1) _).
  assert (K1 : 0 < k1) by apply exp_pos. cbn [INR].
  assert (0 < k1 / b 0%nat ^ 2) by (apply Rdiv_lt_0_compat; [exact K1|apply pow_lt, Hb]).
  replace ((0 - 0) * k0 / b 0%nat ^ 2 - k0 * 0 + ((0 - 1) * k1 / b 0%nat ^ 2 - k1 * 1 + 0)) with (- (k1 / b 0%nat ^ 2) - k1) by (unfold Rdiv; ring).
  lra.
Qed.

(** C94: a run of SVGD with the defaults commutes with relabelling the
    particles, moving the origin and changing the unit of the space (with the
    step size in the new unit), when the potential does not use its key. *)
Theorem C94_equivariant : forall d n sg a s step pg pg' x0 b k b' k' m s0 s0' j i,
  0 < sg -> relabels n s -> (j <= m)%nat ->
  (forall x, pg' (fun c => sg * x c + a c) = (fst (pg x), fun c => snd (pg x) c / sg)) ->
  let r := svgd_default d n step (fun x _ => pg x) x0 b k m in
  let r' := svgd_default d n (fun t => sg * step t) (fun x _ => pg' x) (fun i c => sg * x0 (s i) c + a c) b' k' m in
  (forall c, value (nth j r' s0') i c = sg * value (nth j r s0) (s i) c + a c)
  /\ potential (nth j r' s0') i = potential (nth j r s0) (s i)
  /\ (forall c, grad (nth j r' s0') i c = grad (nth j r s0) (s i) c / sg)
  /\ (forall c, kparams (nth j r' s0') c = sg * kparams (nth j r s0) c).
Proof.
  intros d n sg a s step pg pg' x0 b k b' k' m s0 s0' j i Hs Hp Hj Hpg r r'.
  assert (Hpg' : forall x, pg' (fun c => sg * x c + a c) = (fst (pg x), fun c => / sg * snd (pg x) c)).
  { intros x. rewrite Hpg. f_equal. extensionality c. unfold Rdiv. ring. }
  (* the given bandwidth is not used *)
  assert (Eb : r' = svgd_default d n (fun t => sg * step t) (fun x _ => pg' x) (fun i c => sg * x0 (s i) c + a c) (fun c => sg * b c) k' m)
    by reflexivity.
  rewrite Eb. clear Eb r'. unfold r, svgd_default. rewrite !run_nth by exact Hj.
  destruct (iterate_equi d n sg a s Hs Hp step (9 / 10) pg pg' Hpg' x0 b k k' j) as (Ev & Ep & Eg & Ek & _).
  split; [intros c; exact (f_equal (fun v => v i c) Ev)|].
  split; [exact (f_equal (fun v => v i) Ep)|].
  split; [intros c; refine (eq_trans (f_equal (fun v => v i c) Eg) _); apply Rmult_comm|].
  intros c. exact (f_equal (fun v => v c) Ek).
Qed.
Print Assumptions C94_equivariant.

(** The normal potential with mean one and standard deviation two, reached from
    the standard one by x -> 2 x + 1, with two particles exchanged. *)
Example C94_example : forall x0 b k s0 j i c, (j <= 50)%nat ->
  let swap i := match i with 0 => 1 | 1 => 0 | _ => i end%nat in
  value (nth j (svgd_default 1 2 (fun _ => 2 * (1 / 10)) (fun x _ => (((x 0%nat - 1) / 2) ^ 2 / 2, fun c => (x c - 1) / 4))
                  (fun i c => 2 * x0 (swap i) c + 1) b k 50) s0) i c
  = 2 * value (nth j (svgd_default 1 2 (fun _ => 1 / 10) (fun x _ => (x 0%nat ^ 2 / 2, x)) x0 b k 50) s0) (swap i) c + 1.
Proof.
  intros x0 b k s0 j i c Hj swap.
  destruct (C94_equivariant 1 2 2 (fun _ => 1) swap (fun _ => 1 / 10) (fun x => (x 0%nat ^ 2 / 2, x))
     (fun x => (((x 0%nat - 1) / 2) ^ 2 / 2, fun c => (x c - 1) / 4)) x0 b k b k 50 s0 s0 j i) as (H & _).
  - lra.
  - unfold relabels. cbn. apply perm_swap.
  - exact Hj.
  - intros x. cbn [fst snd]. f_equal; [field|]. extensionality q. field.
  - apply H.
Qed.
