(** Property theorems C23. *)
From Coq Require Import Reals List Arith Lia Lra.
From Verif Require Import XR WeightsModel WeightsSpec WeightsProofs.
Import ListNotations.
Open Scope R_scope.

(** The function computed is Kish's formula, for log weights that are finite or
    minus infinity and not all minus infinity. *)
Theorem C23_ess_formula :
  forall l, lw_ok l ->
  ess_log_weight l = Fin ((Rsum (weights l)) ^ 2 / Rsum (map (fun x => x ^ 2) (weights l))).
Proof. exact ess_kish. Qed.
Print Assumptions C23_ess_formula.

(** C23: bounds, and when the upper one is attained. *)
Theorem C23_ess_bounds :
  forall l, lw_ok l ->
  exists e, ess_log_weight l = Fin e
    /\ 1 <= e <= INR (length l)
    /\ (e = INR (length l) <-> (forall x y, In x l -> In y l -> x = y)).
Proof.
  intros l H. exists (kish (weights l)). split; [apply ess_kish; auto|].
  pose proof (weights_nonneg l) as F. pose proof (weights_pos l (proj2 H)) as E.
  split; [rewrite <- (map_length weight l : length (weights l) = length l); apply kish_bounds; auto|].
  assert (L : length l = length (weights l)) by (symmetry; apply map_length).
  rewrite L, (kish_full (weights l)); auto.
  - split.
    + intros A x y Hx Hy.
      assert (W : weight x = weight y) by (apply A; apply in_map; auto).
      destruct H as [Hf _]. rewrite Forall_forall in Hf.
      destruct (Hf x Hx) as [->|[r ->]], (Hf y Hy) as [->|[s ->]]; cbn in W; auto.
      * pose proof (exp_pos s). lra.
      * pose proof (exp_pos r). lra.
      * f_equal. apply exp_inv; exact W.
    + intros A x y Hx Hy. apply in_map_iff in Hx, Hy.
      destruct Hx as (a & <- & Ha), Hy as (b & <- & Hb). rewrite (A a b Ha Hb). reflexivity.
  - intros N. rewrite N in E. inversion E.
Qed.
Print Assumptions C23_ess_bounds.

(** C23: [k] equal weights and the others zero. *)
Theorem C23_ess_k_equal :
  forall l c k, (forall x, In x l -> x = Fin c \/ x = NInf) ->
  length (filter (fun x => match x with Fin _ => true | _ => false end) l) = k -> (1 <= k)%nat ->
  ess_log_weight l = Fin (INR k).
Proof.
  intros l c k H Hk K.
  assert (A : forall m, (forall x, In x m -> x = Fin c \/ x = NInf) ->
     let k := length (filter (fun x => match x with Fin _ => true | _ => false end) m) in
     Rsum (weights m) = INR k * exp c
     /\ Rsum (map (fun x => x ^ 2) (weights m)) = INR k * (exp c) ^ 2
     /\ ((1 <= k)%nat -> List.Exists finite m)).
  { induction m as [|x m IH]; intros Hm; cbv zeta.
    - cbn. split; [lra|]. split; [lra|lia].
    - destruct IH as (I1 & I2 & I3); [intros; apply Hm; right; auto|].
      destruct (Hm x (or_introl eq_refl)) as [-> | ->]; cbn [filter weights map weight Rsum length];
        change (map weight m) with (weights m).
      + rewrite I1, I2, S_INR. split; [lra|]. split; [lra|]. intros _. left. exists c. auto.
      + rewrite I1, I2. split; [lra|]. split; [lra|]. intros L. right. auto. }
  destruct (A l H) as (A1 & A2 & A3). rewrite Hk in *.
  rewrite ess_kish.
  - unfold kish. rewrite A1, A2. f_equal. pose proof (exp_pos c).
    assert (INR k <> 0) by (apply not_0_INR; lia). field. split; lra.
  - split; [|apply A3; lia]. apply Forall_forall. intros x Hx.
    destruct (H x Hx) as [->| ->]; [right; exists c; auto | left; auto].
Qed.
Print Assumptions C23_ess_k_equal.

(** C23: adding a constant to all log weights changes nothing. *)
Theorem C23_ess_shift :
  forall l c, lw_ok l -> ess_log_weight (map (fun x => xadd x (Fin c)) l) = ess_log_weight l.
Proof.
  intros l c H.
  assert (H' : lw_ok (map (fun x => xadd x (Fin c)) l)).
  { destruct H as [F E]. split.
    - apply Forall_map. apply Forall_impl with (2 := F). intros x [->|[r ->]]; [left|right]; [reflexivity|].
      exists (r + c). reflexivity.
    - apply Exists_exists in E. destruct E as (x & Hx & r & ->). apply Exists_exists.
      exists (Fin (r + c)). split; [apply in_map_iff; exists (Fin r); auto | exists (r + c); auto]. }
  rewrite (ess_kish _ H'), (ess_kish _ H). f_equal.
  assert (W : weights (map (fun x => xadd x (Fin c)) l) = map (fun x => exp c * x) (weights l)).
  { unfold weights. rewrite !map_map. apply map_ext_in. intros x Hx.
    destruct H as [F _]. rewrite Forall_forall in F. destruct (F x Hx) as [->|[r ->]]; cbn; [lra|].
    rewrite exp_plus. lra. }
  rewrite W. apply kish_scal.
  - pose proof (exp_pos c). lra.
  - pose proof (sq_sum_pos _ (weights_pos l (proj2 H))). lra.
Qed.
Print Assumptions C23_ess_shift.

(** The excluded case: when all weights are zero the effective sample size is
    not a number. *)
Theorem C23_all_dead : forall l, List.Forall (fun x => x = NInf) l -> ess_log_weight l = NaN.
Proof.
  intros l F. unfold ess_log_weight, log_ess_log_weight.
  rewrite (logsumexp_dead l F), (logsumexp_dead (map (xmul (Fin 2)) l)).
  - rewrite xmul2_inf. reflexivity.
  - apply Forall_map. apply Forall_impl with (2 := F). intros x ->. apply xmul2_inf.
Qed.
Print Assumptions C23_all_dead.

Example C23_example :
  lw_ok [Fin 3; NInf; Fin 3; Fin 5]
  /\ ess_log_weight [Fin 3; NInf; Fin 3] = Fin 2
  /\ ess_log_weight [Fin 0; Fin (ln 3)] = Fin (8 / 5).
Proof.
  split; [|split].
  - split; [|left; exists 3; reflexivity].
    apply Forall_forall. cbn. intros x [<-|[<-|[<-|[<-|[]]]]]; (left; reflexivity) || (right; eexists; reflexivity).
  - rewrite (C23_ess_k_equal _ 3 2); [f_equal; cbn; lra | | reflexivity | lia].
    cbn. intros x [<-|[<-|[<-|[]]]]; auto.
  - rewrite C23_ess_formula.
    + cbn. rewrite exp_0, exp_ln by lra. f_equal. field.
    + split; [|left; exists 0; reflexivity].
      apply Forall_forall. cbn. intros x [<-|[<-|[]]]; right; eexists; reflexivity.
Qed.
