(** Facts on the Lorenz models. *)
From Coq Require Import Reals ZArith Lra Lia Psatz Arith.
From Coquelicot Require Import Coquelicot.
From Verif Require Import McmcModel SsmSpec SsmProofs GcProofs LorenzModel LorenzSpec.
Open Scope R_scope.

(** ** Cyclic sums *)
Lemma wrap_lt d i s : (0 < d)%nat -> (wrap d i s < d)%nat.
Proof. intros H. unfold wrap. pose proof (Z.mod_pos_bound (Z.of_nat i + s) (Z.of_nat d) ltac:(lia)). lia. Qed.

Lemma wrap_add d i s t : (0 < d)%nat -> wrap d (wrap d i s) t = wrap d i (s + t).
Proof.
  intros H. unfold wrap. rewrite Z2Nat.id by (apply Z.mod_pos_bound; lia).
  rewrite Zplus_mod_idemp_l. do 2 f_equal. lia.
Qed.

Lemma wrap_0 d i : (i < d)%nat -> wrap d i 0 = i.
Proof. intros H. unfold wrap. rewrite Z.add_0_r, Z.mod_small by lia. lia. Qed.

Lemma wrap_nat d i s : (0 < d)%nat -> ((i + s) mod d)%nat = wrap d i (Z.of_nat s).
Proof. intros H. unfold wrap. rewrite <- Nat2Z.inj_add, <- Nat2Z.inj_mod by lia. lia. Qed.

Lemma wrap_period d i s k : (0 < d)%nat -> wrap d i (s + k * Z.of_nat d) = wrap d i s.
Proof. intros H. unfold wrap. rewrite Z.add_assoc, Z_mod_plus_full. reflexivity. Qed.

Lemma sumn_cyclic d f : sumn d (fun i => f (wrap d i 1)) = sumn d f.
Proof.
  destruct d as [|d]; [reflexivity|]. rewrite (sumn_first d f). cbn [sumn].
  rewrite Rplus_comm. f_equal.
  - f_equal. unfold wrap. replace (Z.of_nat d + 1)%Z with (Z.of_nat (S d)) by lia. rewrite Z.mod_same by lia. reflexivity.
  - apply sumn_ext. intros i Hi. f_equal. unfold wrap. rewrite Z.mod_small by lia. lia.
Qed.

Lemma advection d x : sumn d (fun i => x i * ((x (wrap d i 1) - x (wrap d i (-2))) * x (wrap d i (-1)))) = 0.
Proof.
  destruct d as [|d']; [reflexivity|]. set (d := S d'). assert (Hd : (0 < d)%nat) by (unfold d; lia).
  transitivity (sumn d (fun i => x i * x (wrap d i 1) * x (wrap d i (-1)))
                + -1 * sumn d (fun i => x i * x (wrap d i (-2)) * x (wrap d i (-1)))).
  - rewrite <- sumn_scal, <- sumn_plus. apply sumn_ext. intros; ring.
  - rewrite <- (sumn_cyclic d (fun i => x i * x (wrap d i (-2)) * x (wrap d i (-1)))).
    rewrite (sumn_ext d (fun i => x (wrap d i 1) * x (wrap d (wrap d i 1) (-2)) * x (wrap d (wrap d i 1) (-1)))
               (fun i => x i * x (wrap d i 1) * x (wrap d i (-1)))); [ring|].
    intros i Hi. rewrite !wrap_add by exact Hd. change (1 + -2)%Z with (-1)%Z. change (1 + -1)%Z with 0%Z. rewrite (wrap_0 d i Hi). cbv beta. ring.
Qed.

(** ** Derivatives of squared norms *)
Lemma derive_sumn_at n (f : nat -> R -> R) (l : nat -> R) s :
  (forall i, (i < n)%nat -> is_derive (f i) s (l i)) -> is_derive (fun t => sumn n (fun i => f i t)) s (sumn n l).
Proof.
  intros H. induction n as [|n IH]; cbn [sumn].
  - apply (is_derive_const (V := R_NormedModule)).
  - apply (is_derive_plus (V := R_NormedModule) (fun t => sumn n (fun i => f i t)) (f n)); [apply IH; auto|apply H; lia].
Qed.

Lemma sqnorm_derive d f x t : trajectory d f x -> 0 <= t ->
  is_derive (fun s => sqnorm d (x s)) t (2 * sumn d (fun i => x t i * f (x t) i)).
Proof.
  intros T Ht. unfold sqnorm. rewrite <- sumn_scal.
  apply (derive_sumn_at d (fun i s => x s i * x s i)). intros i Hi. pose proof (T t Ht i Hi) as D.
  replace (2 * (x t i * f (x t) i)) with (plus (mult (f (x t) i) (x t i)) (mult (x t i) (f (x t) i)))
    by (unfold plus, mult; cbn; ring).
  apply (is_derive_mult (fun s => x s i) (fun s => x s i)); [exact D|exact D|]. intros; apply Rmult_comm.
Qed.

(** Gronwall: [V' <= - c (V - b)] gives [V <= b + exp(-c t) (V(0) - b)]. *)
Lemma gronwall (V V' : R -> R) b c :
  (forall t, 0 <= t -> is_derive V t (V' t)) -> (forall t, 0 <= t -> V' t <= - c * (V t - b)) ->
  forall t, 0 <= t -> V t <= b + exp (- c * t) * (V 0 - b).
Proof.
  intros D L t Ht.
  set (g := fun s => exp (c * s) * (V s - b)).
  assert (Dg : forall s, 0 <= s <= t -> is_derive g s (exp (c * s) * (c * (V s - b) + V' s))).
  { intros s Hs. unfold g. pose proof (D s ltac:(lra)) as Ds.
    assert (ex_derive V s) by (exists (V' s); exact Ds).
    auto_derive; [auto|]. replace (Derive (fun x : R => V x) s) with (V' s) by (symmetry; exact (is_derive_unique _ _ _ Ds)). ring. }
  assert (G : g t <= g 0).
  { apply (decreasing_of_derive g (fun s => exp (c * s) * (c * (V s - b) + V' s)) 0 t Dg); try lra.
    intros s Hs. pose proof (exp_pos (c * s)). pose proof (L s ltac:(lra)).
    rewrite <- (Rmult_0_r (exp (c * s))). apply Rmult_le_compat_l; lra. }
  unfold g in G. rewrite Rmult_0_r, exp_0 in G.
  replace (V t) with (b + exp (- c * t) * (exp (c * t) * (V t - b))).
  - apply Rplus_le_compat_l, Rmult_le_compat_l; [left; apply exp_pos|lra].
  - rewrite <- Rmult_assoc, <- exp_plus. replace (- c * t + c * t) with 0 by ring. rewrite exp_0. ring.
Qed.
