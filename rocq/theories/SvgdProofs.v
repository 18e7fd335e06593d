(** Lemmas for runs of Stein variational gradient descent. *)
From Coq Require Import Reals List Arith Lia Lra Permutation FunctionalExtensionality.
From Coquelicot Require Import Coquelicot.
From Verif Require Import Keys McmcModel LoopModel LoopSpec LoopProofs LoopProps KernelModel KernelSpec KernelProofs KernelPsd KernelProps SvgdModel.
Import ListNotations.
Open Scope R_scope.

(** ** Iterates of a run *)
Section Run.
  Variables (n : nat) (O : Type) (opt : optimiser O) (pg : vec -> key -> R * vec) (KP : Type).
  Variables (kern : KP -> kernel) (adapt : arr -> KP -> KP) (batch : key -> nat -> list nat).
  Variables (x0 : arr) (kp : KP) (k : key).
  Notation upd := (svgd_update n O opt pg KP kern adapt batch).
  Notation init := (svgd_start n O opt pg KP adapt x0 kp k).
  Lemma run_iterates m : svgd_run n O opt pg KP kern adapt batch x0 kp k m
    = map (fun i => fst (iterate upd i init)) (seq 0 (S m)).
  Proof.
    unfold svgd_run. rewrite (C02_counted_run_length _ _ (@iter O)); [|reflexivity].
    cbn [svgd_start snd iter]. rewrite Nat.sub_0_r. reflexivity.
  Qed.
  Lemma run_nth m j s0 : (j <= m)%nat ->
    nth j (svgd_run n O opt pg KP kern adapt batch x0 kp k m) s0 = fst (iterate upd j init).
  Proof.
    intros Hj. rewrite run_iterates.
    rewrite (nth_indep _ _ (fst (iterate upd 0 init))) by (rewrite map_length, seq_length; lia).
    rewrite (map_nth (fun i => fst (iterate upd i init))). rewrite seq_nth by lia. reflexivity.
  Qed.
  Lemma run_length m : length (svgd_run n O opt pg KP kern adapt batch x0 kp k m) = S m.
  Proof. rewrite run_iterates, map_length, seq_length. reflexivity. Qed.

  (** the keys *)
  Fixpoint chain (j : nat) : key := match j with 0 => KSplit k (n + 1) n | S j' => KSplit (chain j') (n + 2) n end.
  Definition pkey (j i : nat) : key :=
    match j with 0 => KSplit k (n + 1) i | S j' => KSplit (chain j') (n + 2) i end.
  Definition bkey (j : nat) : key := KSplit (chain j) (n + 2) (n + 1).
  Lemma it_key j : rkey (snd (iterate upd j init)) = chain j.
  Proof. induction j as [|j IH]; [reflexivity|]. cbn [iterate svgd_update snd rkey]. rewrite IH. reflexivity. Qed.
  Lemma it_iter j : iter (snd (iterate upd j init)) = j.
  Proof. induction j as [|j IH]; [reflexivity|]. cbn [iterate svgd_update snd iter]. rewrite IH. reflexivity. Qed.
  Lemma it_pg j i : potential (fst (iterate upd j init)) i = fst (pg (value (fst (iterate upd j init)) i) (pkey j i))
    /\ grad (fst (iterate upd j init)) i = snd (pg (value (fst (iterate upd j init)) i) (pkey j i)).
  Proof. destruct j as [|j]; [split; reflexivity|]. cbn [iterate svgd_update fst snd potential grad value pkey]. rewrite it_key. split; reflexivity. Qed.
End Run.

Fixpoint depth (k : key) : nat := match k with KRoot _ => 0 | KSplit k' _ _ => S (depth k') end.
Lemma depth_chain n k j : depth (chain n k j) = (S (depth k) + j)%nat.
Proof. induction j as [|j IH]; cbn in *; lia. Qed.
Lemma depth_pkey n k j i : depth (pkey n k j i) = (S (depth k) + j)%nat.
Proof. destruct j; cbn; [lia|]. rewrite depth_chain. lia. Qed.
Lemma depth_bkey n k j : depth (bkey n k j) = (S (S (depth k)) + j)%nat.
Proof. cbn. rewrite depth_chain. lia. Qed.
Lemma pkey_inj n k j i j' i' : pkey n k j i = pkey n k j' i' -> j = j' /\ i = i'.
Proof.
  intros E. assert (j = j') by (apply (f_equal depth) in E; rewrite !depth_pkey in E; lia). subst.
  split; [reflexivity|]. destruct j'; cbn in E; congruence.
Qed.
Lemma bkey_inj n k j j' : bkey n k j = bkey n k j' -> j = j'.
Proof. intros E. apply (f_equal depth) in E. rewrite !depth_bkey in E. lia. Qed.
Lemma pkey_bkey n k j i j' : (i < n)%nat -> pkey n k j i <> bkey n k j'.
Proof.
  intros Hi E. assert (j = S j') by (apply (f_equal depth) in E; rewrite depth_pkey, depth_bkey in E; lia). subst.
  cbn in E. injection E as E1. lia.
Qed.

(** ** adagrad *)
Lemma scaled_le_1 (g q : R) : 0 <= q -> Rabs (g * (if Rlt_dec 0 (q + g ^ 2) then 1 / sqrt (q + g ^ 2) else 0)) <= 1.
Proof.
  intros Hq. destruct (Rlt_dec 0 (q + g ^ 2)) as [H|H].
  2:{ rewrite Rmult_0_r, Rabs_R0. lra. }
  assert (S0 : 0 < sqrt (q + g ^ 2)) by (apply sqrt_lt_R0; exact H).
  rewrite Rabs_mult. unfold Rdiv. rewrite Rmult_1_l, (Rabs_right (/ _)) by (apply Rle_ge, Rlt_le, Rinv_0_lt_compat, S0).
  apply (Rmult_le_reg_r (sqrt (q + g ^ 2))); [exact S0|].
  rewrite Rmult_assoc, Rinv_l, Rmult_1_r, Rmult_1_l by lra.
  rewrite <- sqrt_Rsqr_abs. apply sqrt_le_1_alt. unfold Rsqr. lra.
Qed.

Section Ada.
  Variables (step : nat -> R) (mom : R) (x0 : arr) (g : nat -> arr).
  Hypothesis Hm : 0 <= mom <= 1.
  Notation S_ := (ada_iter step mom x0 g).
  Lemma ada_sq_sum t p c : ada_sq (S_ t) p c = vsum t (fun s => g s p c ^ 2).
  Proof. induction t as [|t IH]; [reflexivity|]. cbn [ada_iter adagrad_update ada_sq vsum]. rewrite IH. reflexivity. Qed.
  Lemma ada_sq_nonneg t p c : 0 <= ada_sq (S_ t) p c.
  Proof. rewrite ada_sq_sum. apply vsum_nonneg. intros i _. apply pow2_ge_0. Qed.
  Lemma ada_m_le t p c : Rabs (ada_m (S_ t) p c) <= 1 - mom ^ t.
  Proof.
    induction t as [|t IH]; [cbn; rewrite Rabs_R0; lra|]. cbn [ada_iter adagrad_update ada_m pow].
    set (u := g t p c * _).
    assert (Hu : Rabs u <= 1) by (apply scaled_le_1, ada_sq_nonneg).
    eapply Rle_trans; [apply Rabs_triang|]. rewrite !Rabs_mult, (Rabs_right (1 - mom)), (Rabs_right mom) by lra.
    nra.
  Qed.
  Lemma ada_step t p c : ada_x (S_ (S t)) p c = ada_x (S_ t) p c - step (S t) * ada_m (S_ (S t)) p c.
  Proof. reflexivity. Qed.
  Lemma ada_m_rec t p c : ada_m (S_ (S t)) p c
    = (1 - mom) * (g t p c * (if Rlt_dec 0 (vsum (S t) (fun s => g s p c ^ 2)) then 1 / sqrt (vsum (S t) (fun s => g s p c ^ 2)) else 0))
      + mom * ada_m (S_ t) p c.
  Proof. cbn [ada_iter adagrad_update ada_m vsum]. rewrite ada_sq_sum. reflexivity. Qed.
End Ada.

Lemma inv_scaled c g q : 0 < c ->
  c * g * (if Rlt_dec 0 (c ^ 2 * q) then 1 / sqrt (c ^ 2 * q) else 0) = g * (if Rlt_dec 0 q then 1 / sqrt q else 0).
Proof.
  intros Hc. assert (H2 : 0 < c ^ 2) by (apply pow_lt; exact Hc).
  destruct (Rlt_dec 0 (c ^ 2 * q)) as [H|H], (Rlt_dec 0 q) as [H'|H']; try (exfalso; nra); [|ring].
  rewrite sqrt_mult, sqrt_pow2 by lra. field. split; [|lra]. apply Rgt_not_eq, sqrt_lt_R0, H'.
Qed.

(** ** Equivariance *)
Section Equi.
  Variables (d n : nat) (sg : R) (a : vec) (s : nat -> nat).
  Hypothesis Hs : 0 < sg.
  Hypothesis Hp : relabels n s.
  Notation T x := (fun (i : nat) (c : nat) => sg * x (s i) c + a c).

  Lemma gcall_equi b x y : gaussian_call d (fun c => sg * b c) (fun c => sg * x c + a c) (fun c => sg * y c + a c)
    = gaussian_call d b x y.
  Proof.
    unfold gaussian_call. do 2 f_equal. apply vsum_ext. intros i _. f_equal.
    unfold Rdiv. rewrite Rinv_mult.
    replace (sg * x i + a i - (sg * y i + a i)) with (sg * (x i - y i)) by ring.
    transitivity (sg * / sg * ((x i - y i) * / b i)); [ring|]. rewrite Rinv_r by lra. ring.
  Qed.
  Lemma ggrad_equi b x y c : gaussian_grad_x d (fun c => sg * b c) (fun c => sg * x c + a c) (fun c => sg * y c + a c) c
    = / sg * gaussian_grad_x d b x y c.
  Proof.
    unfold gaussian_grad_x. rewrite gcall_equi. unfold Rdiv. rewrite Rpow_mult_distr, Rinv_mult.
    replace (/ sg ^ 2) with (/ sg * / sg) by (field; lra).
    replace (sg * y c + a c - (sg * x c + a c)) with (sg * (y c - x c)) by ring.
    transitivity ((sg * / sg) * / sg * ((y c - x c) * gaussian_call d b x y * / b c ^ 2)); [ring|]. rewrite Rinv_r by lra. ring.
  Qed.
  Lemma kgrad_equi b (x g : arr) i c :
    kernelised_grad (gaussian d (fun c => sg * b c)) (T x) (fun i c => / sg * g (s i) c) (full_batch n) i c
    = / sg * kernelised_grad (gaussian d b) x g (full_batch n) (s i) c.
  Proof.
    unfold kernelised_grad, full_batch. rewrite !lsum_seq. rewrite seq_length. cbn [k_call k_grad_x gaussian].
    rewrite (vsum_ext n _ (fun j => / sg * (- gaussian_call d b (x (s j)) (x (s i)) * g (s j) c
                                            + gaussian_grad_x d b (x (s j)) (x (s i)) c))).
    2:{ intros j _. rewrite gcall_equi, ggrad_equi. ring. }
    rewrite vsum_scal.
    rewrite (vsum_perm n s (fun j => - gaussian_call d b (x j) (x (s i)) * g j c + gaussian_grad_x d b (x j) (x (s i)) c) Hp).
    unfold Rdiv. ring.
  Qed.
  Lemma l2_equi x y : l2_dist d (fun c => sg * x c + a c) (fun c => sg * y c + a c) = sg * l2_dist d x y.
  Proof.
    unfold l2_dist. rewrite (vsum_ext d _ (fun i => sg ^ 2 * (x i - y i) ^ 2)) by (intros; ring).
    rewrite vsum_scal, sqrt_mult, sqrt_pow2; [reflexivity|lra| |].
    - apply pow2_ge_0.
    - apply vsum_nonneg. intros. apply pow2_ge_0.
  Qed.
  Lemma bandwidth_equi x : mean_bandwidth d n (T x) = sg * mean_bandwidth d n x.
  Proof.
    unfold mean_bandwidth.
    rewrite (vsum_ext n _ (fun i => sg * vsum n (fun j => l2_dist d (x (s i)) (x j)))).
    2:{ intros i _. rewrite <- (vsum_perm n s (fun j => l2_dist d (x (s i)) (x j)) Hp), <- vsum_scal.
        apply vsum_ext. intros j _. apply l2_equi. }
    rewrite vsum_scal, (vsum_perm n s (fun i => vsum n (fun j => l2_dist d (x i) (x j))) Hp). unfold Rdiv. ring.
  Qed.

  Variables (step : nat -> R) (mom : R) (pg pg' : vec -> R * vec).
  Hypothesis Hpg : forall x, pg' (fun c => sg * x c + a c) = (fst (pg x), fun c => / sg * snd (pg x) c).

  Definition related (p q : est vec * ext ada) : Prop :=
    value (fst q) = T (value (fst p)) /\ potential (fst q) = (fun i => potential (fst p) (s i))
    /\ grad (fst q) = (fun i c => / sg * grad (fst p) (s i) c) /\ kparams (fst q) = (fun c => sg * kparams (fst p) c)
    /\ iter (snd q) = iter (snd p)
    /\ ada_x (opt_state (snd q)) = T (ada_x (opt_state (snd p)))
    /\ ada_sq (opt_state (snd q)) = (fun i c => (/ sg) ^ 2 * ada_sq (opt_state (snd p)) (s i) c)
    /\ ada_m (opt_state (snd q)) = (fun i c => ada_m (opt_state (snd p)) (s i) c).
  Notation upd := (svgd_update n ada (adagrad step mom) (fun x _ => pg x) vec (gaussian d) (adapt_bandwidth_mean d n) (fun _ => full_batch n)).
  Notation upd' := (svgd_update n ada (adagrad (fun i => sg * step i) mom) (fun x _ => pg' x) vec (gaussian d) (adapt_bandwidth_mean d n) (fun _ => full_batch n)).

  Lemma ada_equi i g st st' :
    ada_x st' = T (ada_x st) -> ada_sq st' = (fun i c => (/ sg) ^ 2 * ada_sq st (s i) c) ->
    ada_m st' = (fun i c => ada_m st (s i) c) ->
    let r := adagrad_update step mom i g st in
    let r' := adagrad_update (fun i => sg * step i) mom i (fun p c => / sg * g (s p) c) st' in
    ada_x r' = T (ada_x r) /\ ada_sq r' = (fun i c => (/ sg) ^ 2 * ada_sq r (s i) c)
    /\ ada_m r' = (fun i c => ada_m r (s i) c).
  Proof.
    intros Ex Eq Em r r'.
    assert (Sq : ada_sq r' = (fun i c => (/ sg) ^ 2 * ada_sq r (s i) c)).
    { extensionality p. extensionality c. cbn. rewrite Eq. ring. }
    assert (M : ada_m r' = (fun i c => ada_m r (s i) c)).
    { extensionality p. extensionality c. cbn [r r' adagrad_update ada_m]. rewrite Eq, Em. f_equal. f_equal.
      replace ((/ sg) ^ 2 * ada_sq st (s p) c + (/ sg * g (s p) c) ^ 2)
        with ((/ sg) ^ 2 * (ada_sq st (s p) c + g (s p) c ^ 2)) by ring.
      apply inv_scaled, Rinv_0_lt_compat, Hs. }
    split; [|split; assumption].
    extensionality p. extensionality c.
    change (ada_x st' p c - sg * step i * ada_m r' p c = sg * (ada_x st (s p) c - step i * ada_m r (s p) c) + a c).
    rewrite M, Ex. ring.
  Qed.

  Lemma start_equi x0 b k k' : related (svgd_start n ada (adagrad step mom) (fun x _ => pg x) vec (adapt_bandwidth_mean d n) x0 b k)
    (svgd_start n ada (adagrad (fun i => sg * step i) mom) (fun x _ => pg' x) vec (adapt_bandwidth_mean d n) (T x0) (fun c => sg * b c) k').
  Proof.
    unfold related, svgd_start. cbn [fst snd value potential grad kparams iter opt_state].
    repeat split; try reflexivity.
    - extensionality i. rewrite Hpg. reflexivity.
    - extensionality i. rewrite Hpg. reflexivity.
    - extensionality c. unfold adapt_bandwidth_mean. apply bandwidth_equi.
    - cbn. extensionality i. extensionality c. ring.
  Qed.
  Lemma update_equi p q : related p q -> related (upd (fst p) (snd p)) (upd' (fst q) (snd q)).
  Proof.
    intros (Ev & Ep & Eg & Ek & Ei & Ex & Eq & Em).
    unfold svgd_update. rewrite Ei, Ev, Eg, Ek.
    set (g := fun p0 c => - kernelised_grad (gaussian d (kparams (fst p))) (value (fst p)) (grad (fst p)) (full_batch n) p0 c).
    replace (fun p0 c => - kernelised_grad (gaussian d (fun c0 => sg * kparams (fst p) c0)) (T (value (fst p)))
               (fun i c0 => / sg * grad (fst p) (s i) c0) (full_batch n) p0 c)
      with (fun p0 c => / sg * g (s p0) c).
    2:{ extensionality p0. extensionality c. rewrite kgrad_equi. unfold g. ring. }
    destruct (ada_equi (S (iter (snd p))) g _ _ Ex Eq Em) as (Ax & Aq & Am).
    unfold related. cbn [fst snd value potential grad kparams iter opt_state adagrad opt_update get_params].
    set (r := adagrad_update step mom _ g _) in *. set (r' := adagrad_update _ mom _ _ (opt_state (snd q))) in *.
    repeat split; try assumption.
    - extensionality i. rewrite Ax, Hpg. reflexivity.
    - extensionality i. rewrite Ax, Hpg. reflexivity.
    - extensionality c. unfold adapt_bandwidth_mean. rewrite Ax. apply bandwidth_equi.
  Qed.
  Lemma iterate_equi x0 b k k' j : related
    (iterate upd j (svgd_start n ada (adagrad step mom) (fun x _ => pg x) vec (adapt_bandwidth_mean d n) x0 b k))
    (iterate upd' j (svgd_start n ada (adagrad (fun i => sg * step i) mom) (fun x _ => pg' x) vec (adapt_bandwidth_mean d n) (T x0) (fun c => sg * b c) k')).
  Proof. induction j as [|j IH]; [apply start_equi|]. cbn [iterate]. apply update_equi, IH. Qed.
End Equi.
