(** Theorems about kernels, the kernelised Stein discrepancy and the direction
    of SVGD: C26, C46, C47, C72, C73, C74. *)
From Coq Require Import Reals List Arith Lia Lra Permutation FunctionalExtensionality.
From Coquelicot Require Import Coquelicot.
From Verif Require Import ScenarioSpec SsmSpec SsmProofs KernelModel KernelSpec KernelProofs KernelPsd.
Import ListNotations.
Open Scope R_scope.

(** * C46 *)

(** A kernel's methods are the derivatives of its value *)
Definition kernel_derivatives (d : nat) (k : vec -> vec -> R) (gx gy m : vec -> vec -> vec) (x y : vec) : Prop :=
  is_grad d (fun v => k v y) x (gx x y) /\ is_grad d (fun v => k x v) y (gy x y)
  /\ forall i, (i < d)%nat -> is_mixed k x y i (m x y i).

Lemma grad_of_move d f x g : (forall h, is_derive (fun t => f (move x h t)) 0 (dotn d g h)) -> is_grad d f x g.
Proof. intros H h. apply H. Qed.
Lemma dotn_ext d g g' h : (forall i, (i < d)%nat -> g i = g' i) -> dotn d g h = dotn d g' h.
Proof. intros H. rewrite !vsum_dotn. apply vsum_ext. intros i Hi. rewrite H by exact Hi. reflexivity. Qed.
Lemma gaussian_call_ext d b x x' y y' : (forall i, (i < d)%nat -> x i = x' i) -> (forall i, (i < d)%nat -> y i = y' i) ->
  gaussian_call d b x y = gaussian_call d b x' y'.
Proof.
  intros H H'. unfold gaussian_call. do 2 f_equal. apply vsum_ext. intros i Hi. rewrite H, H' by exact Hi. reflexivity.
Qed.
Lemma move_0 x h i : move x h 0 i = x i.
Proof. unfold move. ring. Qed.

Lemma mixed_eq k x y i v w : is_mixed k x y i v -> v = w -> is_mixed k x y i w.
Proof. intros H <-. exact H. Qed.

Theorem C46_gaussian : forall d b x y, (forall i, (i < d)%nat -> b i <> 0) ->
  kernel_derivatives d (gaussian_call d b) (gaussian_grad_x d b) (gaussian_grad_y d b) (gaussian_diag d b) x y.
Proof.
  intros d b x y Hb. split; [|split].
  - apply grad_of_move. intros h. eapply derive_eq; [apply gaussian_move_x|]. apply dotn_ext. intros i Hi.
    unfold gaussian_grad_x. rewrite move_0. f_equal. f_equal. apply gaussian_call_ext; intros; [apply move_0|reflexivity].
  - apply grad_of_move. intros h. eapply derive_eq; [apply gaussian_move_y|]. apply dotn_ext. intros i Hi.
    unfold gaussian_grad_y. rewrite move_0. f_equal. f_equal. apply gaussian_call_ext; intros; [reflexivity|apply move_0].
  - intros i Hi. apply gaussian_mixed; [exact Hi|apply Hb, Hi].
Qed.
Print Assumptions C46_gaussian.

(** in two dimensions with bandwidths 1 and 2: the first coordinate of the gradient and of the mixed derivative *)
Example C46_gaussian_ex :
  let b := fun i => INR (S i) in let x := fun i => INR i in let y := fun _ : nat => 2 in
  kernel_derivatives 2 (gaussian_call 2 b) (gaussian_grad_x 2 b) (gaussian_grad_y 2 b) (gaussian_diag 2 b) x y
  /\ gaussian_grad_x 2 b x y 0%nat = 2 * gaussian_call 2 b x y
  /\ gaussian_diag 2 b x y 0%nat = - 3 * gaussian_call 2 b x y.
Proof.
  cbv zeta. split; [|split].
  - apply C46_gaussian. intros i Hi. apply not_0_INR. lia.
  - unfold gaussian_grad_x. cbn [INR]. field.
  - unfold gaussian_diag. cbn [INR]. field.
Qed.

(** Its gradients are right for every symmetric precision; the mixed derivatives
    are right in one dimension.  Missing: they are wrong in other dimensions, see
    [C46_preconditioned_diag_refuted]. *)
Theorem C46_preconditioned_partial : forall d b P x y, b <> 0 ->
  (forall i j, (i < d)%nat -> (j < d)%nat -> P i j = P j i) ->
  is_grad d (fun v => pg_call d b P v y) x (pg_grad_x d b P x y)
  /\ is_grad d (fun v => pg_call d b P x v) y (pg_grad_y d b P x y)
  /\ (d = 1%nat -> is_mixed (pg_call d b P) x y 0 (pg_diag d b P x y 0 0)).
Proof.
  intros d b P x y Hb HP. split; [|split].
  - apply grad_of_move. intros h. eapply derive_eq; [apply pg_move_x; assumption|]. apply dotn_ext. intros i Hi.
    unfold pg_grad_x. rewrite pg_move0_x. do 2 f_equal. apply vsum_ext. intros j Hj. rewrite move_0. reflexivity.
  - apply grad_of_move. intros h. eapply derive_eq; [apply pg_move_y; assumption|]. apply dotn_ext. intros i Hi.
    unfold pg_grad_y. rewrite pg_move0_y by assumption. do 2 f_equal. apply vsum_ext. intros j Hj. rewrite move_0. reflexivity.
  - intros ->. assert (H := pg_mixed 1 b P Hb HP x y 0 ltac:(lia)).
    match type of H with is_mixed _ _ _ _ ?v => replace (pg_diag 1 b P x y 0 0) with v; [exact H|] end.
    unfold pg_diag. cbn [vsum]. field. exact Hb.
Qed.
Print Assumptions C46_preconditioned_partial.

Definition eye (i j : nat) : R := if Nat.eqb i j then 1 else 0.
Definition mat2 (i j : nat) : R := if Nat.eqb i j then 2 else 1.

Example C46_preconditioned_partial_ex :
  is_grad 2 (fun v => pg_call 2 1 mat2 v (fun _ => 0)) (fun _ => 1) (fun _ => -3 * exp (-3)).
Proof.
  assert (H := C46_preconditioned_partial 2 1 mat2 (fun _ => 1) (fun _ => 0) ltac:(lra)).
  destruct H as [H _].
  - intros i j _ _. unfold mat2. rewrite Nat.eqb_sym. reflexivity.
  - intros h. specialize (H h). eapply derive_eq; [exact H|]. apply dotn_ext. intros i Hi. unfold pg_grad_x, pg_call, mat2.
    cbn [vsum]. destruct i as [|[|i]]; [| |lia]; cbn [Nat.eqb]; f_equal; try (f_equal; field); field.
Qed.

(** Two dimensions, unit precision and bandwidth, equal points: the mixed
    derivatives are 1 and 1, the sum of the returned entries is 4. *)
Theorem C46_preconditioned_diag_refuted : exists d b P x y,
  b <> 0 /\ (forall i j, P i j = P j i)
  /\ exists v, (forall i, (i < d)%nat -> is_mixed (pg_call d b P) x y i (v i))
  /\ k_diag_sum (preconditioned d b P) x y <> sumn d v.
Proof.
  exists 2%nat, 1, eye, (fun _ => 0), (fun _ => 0). split; [lra|].
  assert (HP : forall i j, eye i j = eye j i) by (intros; unfold eye; rewrite Nat.eqb_sym; reflexivity).
  split; [exact HP|]. exists (fun _ => 1). split.
  - intros i Hi. eapply mixed_eq; [apply (pg_mixed 2 1 eye ltac:(lra) (fun i j _ _ => HP i j) (fun _ => 0) (fun _ => 0) i Hi)|].
    unfold pg_call. cbn [vsum]. replace (- (1 / 2) * _) with 0 by field. rewrite exp_0. unfold eye at 1. rewrite Nat.eqb_refl. field.
  - cbn [k_diag_sum preconditioned vsum]. unfold pg_diag, pg_call, eye. cbn [vsum Nat.eqb sumn].
    replace (exp _) with 1; [lra|]. symmetry. replace (- (1 / 2) * _) with 0 by field. apply exp_0.
Qed.
Print Assumptions C46_preconditioned_diag_refuted.

(** The inverse multiquadric: the gradient in the second argument is right, the
    gradient in the first argument is right where the bandwidth is one, and the
    mixed derivative is right where the coordinates agree.  Missing: the other
    cases, which are wrong, see the next two theorems. *)
Theorem C46_imq_partial : forall d c beta b x y, 0 < c -> (forall i, (i < d)%nat -> b i <> 0) ->
  is_grad d (fun v => imq_call d c beta b x v) y (imq_grad_y d c beta b x y)
  /\ ((forall i, (i < d)%nat -> b i = 1) -> is_grad d (fun v => imq_call d c beta b v y) x (imq_grad_x d c beta b x y))
  /\ (forall i, (i < d)%nat -> x i = y i -> is_mixed (imq_call d c beta b) x y i (imq_diag d c beta b x y i)).
Proof.
  intros d c beta b x y Hc Hb. split; [|split].
  - apply grad_of_move. intros h. eapply derive_eq; [apply imq_move_y; assumption|]. apply dotn_ext. intros i Hi.
    unfold imq_grad_y. rewrite move_0, imq_base_move0_y. reflexivity.
  - intros Hb1. apply grad_of_move. intros h. eapply derive_eq; [apply imq_move_x; assumption|]. apply dotn_ext. intros i Hi.
    unfold imq_grad_x. rewrite move_0, imq_base_move0_x, Hb1 by exact Hi. field.
  - intros i Hi E. assert (H := imq_mixed d c beta b Hc Hb x y i Hi).
    match type of H with is_mixed _ _ _ _ ?v => replace (imq_diag d c beta b x y i) with v; [exact H|] end.
    unfold imq_diag. rewrite E. replace ((y i - y i) / b i) with 0 by (unfold Rdiv; ring). unfold Rdiv. ring.
Qed.
Print Assumptions C46_imq_partial.

Example C46_imq_partial_ex :
  is_grad 1 (fun v => imq_call 1 1 1 (fun _ => 2) (fun _ => 0) v) (fun _ => 4) (fun _ => 1).
Proof.
  destruct (C46_imq_partial 1 1 1 (fun _ => 2) (fun _ => 0) (fun _ => 4) ltac:(lra) ltac:(intros; lra)) as [H _].
  intros h. eapply derive_eq; [apply H|]. apply dotn_ext. intros i Hi. unfold imq_grad_y.
  replace (1 - 1) with 0 by ring. rewrite Rpower_O by (apply imq_base_pos; lra). field.
Qed.

(** the gradients in a direction are unique *)
Lemma is_derive_det (f : R -> R) s a b : is_derive f s a -> is_derive f s b -> a = b.
Proof. intros Ha Hb. apply is_derive_unique in Ha, Hb. congruence. Qed.

(** One dimension, bandwidth two: the returned gradient is twice the gradient. *)
Theorem C46_imq_grad_x_refuted : exists d c beta b x y,
  0 < c /\ (forall i, b i <> 0) /\ ~ is_grad d (fun v => imq_call d c beta b v y) x (imq_grad_x d c beta b x y).
Proof.
  exists 1%nat, 1, 1, (fun _ => 2), (fun _ => 2), (fun _ => 0).
  split; [lra|]. split; [intros; lra|]. intros H. specialize (H (fun _ => 1)).
  assert (H' := imq_move_x 1 1 1 (fun _ => 2) ltac:(lra) (fun _ => 2) (fun _ => 0) (fun _ => 1) 0).
  assert (E := is_derive_det _ _ _ _ H H'). cbn [dotn] in E. unfold imq_grad_x, move in E.
  replace (1 - 1) with 0 in E by ring. rewrite !Rpower_O in E; try lra; apply imq_base_pos; lra.
Qed.
Print Assumptions C46_imq_grad_x_refuted.

(** One dimension, unit bandwidth, exponent minus one, points at distance one:
    the second term of the mixed derivative has the opposite sign. *)
Theorem C46_imq_diag_refuted : exists d c beta b x y i,
  0 < c /\ (forall i, b i <> 0) /\ (i < d)%nat /\ ~ is_mixed (imq_call d c beta b) x y i (imq_diag d c beta b x y i).
Proof.
  exists 1%nat, 1, (-1), (fun _ => 1), (fun _ => 1), (fun _ => 0), 0%nat.
  split; [lra|]. split; [intros; lra|]. split; [lia|]. intros (g & Hg & Hd).
  destruct (imq_mixed 1 1 (-1) (fun _ => 1) ltac:(lra) ltac:(intros; lra) (fun _ => 1) (fun _ => 0) 0 ltac:(lia)) as (g' & Hg' & Hd').
  assert (Egg : forall t, g t = g' t) by (intros t; apply (is_derive_det _ _ _ _ (Hg t) (Hg' t))).
  apply (is_derive_ext g g') in Hd; [|exact Egg]. assert (E := is_derive_det _ _ _ _ Hd Hd').
  unfold imq_diag in E.
  assert (Hp : 0 < Rpower (imq_base 1 1 (fun _ => 1) (fun _ => 1) (fun _ => 0)) (-1 - 2)) by apply exp_pos.
  set (a := Rpower _ (-1 - 2)) in *. set (e := Rpower _ (-1 - 1)) in *.
  replace (((1 - 0) / 1) ^ 2) with 1 in E by field. replace (1 ^ 2) with 1 in E by ring. lra.
Qed.
Print Assumptions C46_imq_diag_refuted.

(** * C47 *)

(** The summed terms are the Stein kernel when the gradients of minus the
    potential are given.  Missing: with the potential's gradient, which the
    code takes, they are the Stein kernel of exp(+U); see
    [C47_positive_mean_refuted]. *)
Theorem C47_terms_partial : forall d b vals (u : nat -> vec) i j,
  k_0 d (gaussian d b) vals (fun a c => - u a c) i j
  = stein d (gaussian_call d b (vals i) (vals j)) (gaussian_grad_x d b (vals i) (vals j)) (gaussian_grad_y d b (vals i) (vals j))
          (gaussian_diag d b (vals i) (vals j)) (u i) (u j).
Proof.
  intros. unfold k_0, stein, vdot. cbn [k_call k_grad_x k_grad_y k_diag_sum gaussian]. etransitivity; [|apply vsum_sumn]. rewrite <- vsum_scal, <- !vsum_plus.
  apply vsum_ext. intros c Hc. ring.
Qed.
Print Assumptions C47_terms_partial.

Example C47_terms_partial_ex :
  k_0 1 (gaussian 1 (fun _ => 1)) (fun i _ => INR i) (fun a c => - INR a) 0 1 = - exp (- (1 / 2)).
Proof.
  rewrite (C47_terms_partial 1 (fun _ => 1) (fun i _ => INR i) (fun a _ => INR a)).
  unfold stein, gaussian_grad_x, gaussian_grad_y, gaussian_diag, gaussian_call. cbn [sumn vsum INR].
  replace (- (1 / 2) * (0 + ((0 - 1) / 1) ^ 2)) with (- (1 / 2)) by field. field.
Qed.

(** These terms, times the target density in the second argument, are the
    divergence of a vector field, for every differentiable potential: so they
    integrate to the flux through the boundary. *)
Theorem C47_divergence_partial : forall d b U (u : vec -> vec) (x y : vec), (forall i, (i < d)%nat -> b i <> 0) ->
  (forall v, is_grad d U v (u v)) ->
  let F := fun i v => (gaussian_grad_x d b x v i - u x i * gaussian_call d b x v) * exp (- U v) in
  exists D : nat -> R,
    (forall i, (i < d)%nat -> is_derive (fun t => F i (move y (axis i) t)) 0 (D i))
    /\ sumn d D = k_0 d (gaussian d b) (fun a => if Nat.eqb a 0 then x else y)
                    (fun a c => - u (if Nat.eqb a 0 then x else y) c) 0 1 * exp (- U y).
Proof.
  intros d b U u x y Hb HU F.
  exists (fun i => (gaussian_diag d b x y i - gaussian_grad_x d b x y i * u y i - u x i * gaussian_grad_y d b x y i
     + gaussian_call d b x y * u x i * u y i) * exp (- U y)). split.
  - intros i Hi. destruct (C46_gaussian d b x y Hb) as (_ & Hy & _). destruct (gaussian_mixed d b x y i Hi (Hb i Hi)) as (g & Hg & Hd).
    assert (E : forall t, g t = gaussian_grad_x d b x (move y (axis i) t) i).
    { intros t. apply (is_derive_det _ _ _ _ (Hg t)). eapply derive_eq; [apply gaussian_move_x|]. rewrite vsum_dotn, vsum_axis by exact Hi.
      unfold gaussian_grad_x. rewrite move_0. f_equal. f_equal. apply gaussian_call_ext; intros; [apply move_0|reflexivity]. }
    apply (is_derive_ext g (fun t => gaussian_grad_x d b x (move y (axis i) t) i)) in Hd; [|exact E].
    specialize (Hy (axis i)). specialize (HU y (axis i)). rewrite vsum_dotn, vsum_axis in Hy, HU by exact Hi.
    unfold F. eapply derive_eq.
    + apply (derive_prod (fun t => gaussian_grad_x d b x (move y (axis i) t) i - u x i * gaussian_call d b x (move y (axis i) t))).
      * apply @is_derive_minus; [exact Hd|]. apply (is_derive_scal (fun t => gaussian_call d b x (move y (axis i) t))). exact Hy.
      * apply derive_exp. apply (is_derive_opp (fun t => U (move y (axis i) t))). exact HU.
    + cbv beta. replace (move y (axis i) 0) with y by (apply functional_extensionality; intros; symmetry; apply move_0).
      unfold minus, opp, plus. simpl. ring.
  - transitivity (vsum d (fun i => exp (- U y) * (gaussian_diag d b x y i - gaussian_grad_x d b x y i * u y i
        - u x i * gaussian_grad_y d b x y i + gaussian_call d b x y * u x i * u y i))).
    { etransitivity; [symmetry; apply vsum_sumn|]. apply vsum_ext. intros; ring. }
    rewrite vsum_scal, Rmult_comm. f_equal.
    rewrite (C47_terms_partial d b (fun a => if Nat.eqb a 0 then x else y) (fun a => u (if Nat.eqb a 0 then x else y))).
    unfold stein. apply vsum_sumn.
Qed.
Print Assumptions C47_divergence_partial.

(** the target exp(-x^2/2) *)
Definition normal_U (v : vec) : R := v 0%nat ^ 2 / 2.
Lemma normal_grad : forall v, is_grad 1 normal_U v v.
Proof. intros v h. unfold normal_U. cbn [dotn]. auto_derive; [exact I|]. field. Qed.
(** the pair of a point and another *)
Definition pair_of (x y : R) (a : nat) : vec := fun _ => if Nat.eqb a 0 then x else y.

(** its field at the origin is v exp(-v^2) *)
Example C47_divergence_partial_ex :
  is_derive (fun t => t * exp (- t ^ 2)) 0
    (k_0 1 (gaussian 1 (fun _ => 1)) (pair_of 0 0) (fun a c => - pair_of 0 0 a c) 0 1 * exp (- (0 ^ 2 / 2))).
Proof.
  destruct (C47_divergence_partial 1 (fun _ => 1) normal_U (fun v => v) (fun _ => 0) (fun _ => 0) ltac:(intros; lra) normal_grad)
    as (D & HD & Hs). specialize (HD 0%nat ltac:(lia)). cbv beta in HD.
  cbn [sumn] in Hs. rewrite Rplus_0_l in Hs. unfold pair_of.
  eapply derive_eq; [|exact Hs]. eapply is_derive_ext; [|exact HD].
  intros t. unfold gaussian_grad_x, gaussian_call, normal_U, move, axis. cbn [vsum Nat.eqb].
  replace (- t ^ 2) with (- (1 / 2) * (0 + ((0 - (0 + t * 1)) / 1) ^ 2) + - ((0 + t * 1) ^ 2 / 2)) by field.
  rewrite exp_plus. match goal with |- @eq _ ?a ?b => change (@eq R a b) end. field.
Qed.

(** With the potential's gradient, as the code is called: for the standard normal
    target, a Gaussian kernel of bandwidth one and the first point at the origin,
    the terms have no zero mean: over every interval [-A, A] with A at least one
    their integral against the target density is at least 2/e. *)
Theorem C47_positive_mean_refuted : exists d b U (u : vec -> vec) x,
  (forall i, b i <> 0) /\ (forall v, is_grad d U v (u v))
  /\ forall A, 1 <= A ->
     2 * exp (- 1) <= RInt (fun y => k_0 d (gaussian d b) (pair_of x y) (fun a => u (pair_of x y a)) 0 1 * exp (- U (fun _ => y))) (- A) A.
Proof.
  exists 1%nat, (fun _ => 1), normal_U, (fun v => v), 0.
  split; [intros; lra|]. split; [exact normal_grad|]. intros A HA.
  assert (Ef : forall y, exp (- y ^ 2) =
     k_0 1 (gaussian 1 (fun _ => 1)) (pair_of 0 y) (fun a => pair_of 0 y a) 0 1 * exp (- normal_U (fun _ => y))).
  { intros y. unfold k_0, vdot, pair_of, normal_U. cbn [k_call k_grad_x k_grad_y k_diag_sum gaussian vsum Nat.eqb].
    unfold gaussian_diag, gaussian_grad_x, gaussian_grad_y, gaussian_call. cbn [vsum].
    replace (- y ^ 2) with (- (1 / 2) * (0 + ((0 - y) / 1) ^ 2) + - (y ^ 2 / 2)) by field.
    rewrite exp_plus. field. }
  rewrite (RInt_ext _ (fun y => exp (- y ^ 2))) by (intros; symmetry; apply Ef).
  assert (Hint : forall a b, ex_RInt (fun y => exp (- y ^ 2)) a b).
  { intros a b. apply (ex_RInt_continuous (V := R_CompleteNormedModule)). intros z Hz.
    apply (ex_derive_continuous (K := R_AbsRing) (V := R_NormedModule) (fun y => exp (- y ^ 2))). auto_derive. exact I. }
  rewrite <- (RInt_Chasles (V := R_CompleteNormedModule) (fun y => exp (- y ^ 2)) (- A) (-1) A) by apply Hint.
  rewrite <- (RInt_Chasles (V := R_CompleteNormedModule) (fun y => exp (- y ^ 2)) (-1) 1 A) by apply Hint.
  assert (H1 : 0 <= RInt (fun y => exp (- y ^ 2)) (- A) (-1)).
  { apply RInt_ge_0; [lra|apply Hint|]. intros; apply Rlt_le, exp_pos. }
  assert (H2 : 0 <= RInt (fun y => exp (- y ^ 2)) 1 A).
  { apply RInt_ge_0; [lra|apply Hint|]. intros; apply Rlt_le, exp_pos. }
  assert (H3 : RInt (fun _ => exp (- 1)) (-1) 1 <= RInt (fun y => exp (- y ^ 2)) (-1) 1).
  { apply RInt_le; [lra|apply ex_RInt_const|apply Hint|]. intros y Hy.
    apply Rlt_le, exp_increasing. nra. }
  rewrite RInt_const in H3. change ((1 - -1) * exp (-1) <= RInt (fun y => exp (- y ^ 2)) (-1) 1) in H3. 
  change (2 * exp (-1) <= RInt (fun y => exp (- y ^ 2)) (- A) (-1) + (RInt (fun y => exp (- y ^ 2)) (-1) 1 + RInt (fun y => exp (- y ^ 2)) 1 A)).
  lra.
Qed.
Print Assumptions C47_positive_mean_refuted.

(** * C72 *)

Lemma ksd_weight_shift l c i : ksd_weight (Some (fun j => l j + c)) i = exp c * ksd_weight (Some l) i.
Proof. cbn. rewrite exp_plus. ring. Qed.

(** Adding a constant to all log weights does not change the discrepancy *)
Theorem C72_shift : forall d K n vals grads l c, (0 < n)%nat ->
  ksd d K n vals grads (Some (fun j => l j + c)) (full_batch n) = ksd d K n vals grads (Some l) (full_batch n).
Proof.
  intros d K n vals grads l c Hn. unfold ksd. f_equal.
  assert (Hw : forall lw, vsum n (ksd_weight lw) <> 0) by (intros; apply Rgt_not_eq, vsum_pos; [exact Hn|apply ksd_weight_pos]).
  rewrite !ksd_squared_full by apply Hw.
  rewrite (vsum_ext n (ksd_weight (Some (fun j => l j + c))) (fun i => exp c * ksd_weight (Some l) i)) by (intros; apply ksd_weight_shift).
  rewrite vsum_scal.
  rewrite (vsum_ext n _ (fun i => exp c ^ 2 * vsum n (fun j => ksd_weight (Some l) i * ksd_weight (Some l) j * k_0 d K vals grads i j))).
  - rewrite vsum_scal. field. split; [apply Hw|]. apply Rgt_not_eq, exp_pos.
  - intros i Hi. rewrite <- vsum_scal. apply vsum_ext. intros j Hj. rewrite !ksd_weight_shift. ring.
Qed.
Print Assumptions C72_shift.

Example C72_shift_ex :
  ksd 1 (gaussian 1 (fun _ => 1)) 2 (fun i _ => INR i) (fun i _ => INR i) (Some (fun j => INR j + 5)) (full_batch 2)
  = ksd 1 (gaussian 1 (fun _ => 1)) 2 (fun i _ => INR i) (fun i _ => INR i) (Some INR) (full_batch 2).
Proof. apply C72_shift. lia. Qed.

Definition relabels (n : nat) (s : nat -> nat) : Prop := Permutation (map s (seq 0 n)) (seq 0 n).
Lemma lsum_perm f a b : Permutation a b -> lsum a f = lsum b f.
Proof. intros H. unfold lsum. induction H; cbn [fold_right]; try congruence; try ring. Qed.
Lemma lsum_map f s l : lsum (map s l) f = lsum l (fun i => f (s i)).
Proof. unfold lsum. induction l; cbn [map fold_right]; congruence. Qed.
Lemma vsum_perm n s f : relabels n s -> vsum n (fun i => f (s i)) = vsum n f.
Proof. intros H. rewrite <- !lsum_seq, <- lsum_map. apply lsum_perm, H. Qed.

(** Relabelling the sample does not change the discrepancy *)
Theorem C72_relabel : forall d K n vals grads lw s, (0 < n)%nat -> relabels n s ->
  ksd d K n (fun i => vals (s i)) (fun i => grads (s i)) (option_map (fun l i => l (s i)) lw) (full_batch n)
  = ksd d K n vals grads lw (full_batch n).
Proof.
  intros d K n vals grads lw s Hn Hs. unfold ksd. f_equal.
  rewrite !ksd_squared_full by (apply Rgt_not_eq, vsum_pos; [exact Hn|apply ksd_weight_pos]).
  assert (Ew : forall i, ksd_weight (option_map (fun l i => l (s i)) lw) i = ksd_weight lw (s i)) by (intros; destruct lw; reflexivity).
  f_equal.
  - set (G := fun i j => ksd_weight lw i * ksd_weight lw j * k_0 d K vals grads i j).
    rewrite (vsum_ext n _ (fun i => vsum n (G (s i)))).
    + apply (vsum_perm n s (fun i => vsum n (G i)) Hs).
    + intros i Hi. rewrite <- (vsum_perm n s (G (s i)) Hs). apply vsum_ext. intros j Hj. rewrite !Ew. reflexivity.
  - f_equal. rewrite (vsum_ext n _ (fun i => ksd_weight lw (s i))) by (intros; apply Ew). apply (vsum_perm n s (ksd_weight lw) Hs).
Qed.
Print Assumptions C72_relabel.

Definition rotate3 (i : nat) : nat := match i with 0 => 1 | 1 => 2 | 2 => 0 | _ => i end%nat.
Lemma rotate3_relabels : relabels 3 rotate3.
Proof. unfold relabels. cbn. apply (perm_trans (l' := [1; 0; 2]%nat)); [apply perm_skip, perm_swap|apply perm_swap]. Qed.
Example C72_relabel_ex :
  ksd 1 (gaussian 1 (fun _ => 1)) 3 (fun i _ => INR (rotate3 i)) (fun i _ => INR (rotate3 i)) (Some (fun i => INR (rotate3 i))) (full_batch 3)
  = ksd 1 (gaussian 1 (fun _ => 1)) 3 (fun i _ => INR i) (fun i _ => INR i) (Some INR) (full_batch 3).
Proof.
  apply (C72_relabel 1 (gaussian 1 (fun _ => 1)) 3 (fun i _ => INR i) (fun i _ => INR i) (Some INR) rotate3); [lia|apply rotate3_relabels].
Qed.

(** * C73 *)

(** With all indices, the number under the square root is not negative, for the
    Gaussian kernel, every sample, every gradient and all weights. *)
Theorem C73_full_batch_partial : forall d b n vals grads lw, (0 < n)%nat -> (forall i, (i < d)%nat -> b i <> 0) ->
  0 <= ksd_squared d (gaussian d b) n vals grads lw (full_batch n).
Proof.
  intros d b n vals grads lw Hn Hb. assert (Hw := vsum_pos n (ksd_weight lw) Hn (ksd_weight_pos lw)).
  rewrite ksd_squared_full by lra. apply Rmult_le_pos.
  - apply gaussian_stein_psd, Hb.
  - apply Rlt_le, Rinv_0_lt_compat, pow_lt, Hw.
Qed.
Print Assumptions C73_full_batch_partial.

Example C73_full_batch_partial_ex :
  0 <= ksd_squared 1 (gaussian 1 (fun _ => 1)) 2 (fun i _ => 4 * INR i - 2) (fun i _ => 4 * INR i - 2) None (full_batch 2).
Proof. apply C73_full_batch_partial; [lia|intros; lra]. Qed.

(** A random batch can make it negative, so that the result is not a number:
    points -2 and 2 of a standard normal target, each paired with the other. *)
Theorem C73_batch_refuted : exists d b n vals grads batch,
  (0 < n)%nat /\ (forall i, b i <> 0)
  /\ (exists U, forall i, (i < n)%nat -> is_grad d U (vals i) (grads i))
  /\ (forall i, (i < n)%nat -> batch i <> [] /\ forall j, In j (batch i) -> (j < n)%nat)
  /\ ksd_squared d (gaussian d b) n vals grads None batch < 0.
Proof.
  exists 1%nat, (fun _ => 1), 2%nat, (fun i _ => 4 * INR i - 2), (fun i _ => 4 * INR i - 2), (fun i => [(1 - i)%nat]).
  split; [lia|]. split; [intros; lra|]. split; [exists normal_U; intros; apply normal_grad|]. split.
  { intros i Hi. split; [discriminate|]. intros j [<-|[]]. lia. }
  unfold ksd_squared, lsum, ksd_weight, k_0, vdot. cbn [vsum fold_right Nat.sub].
  cbn [k_call k_grad_x k_grad_y k_diag_sum gaussian vsum]. unfold gaussian_diag, gaussian_grad_x, gaussian_grad_y, gaussian_call.
  cbn [vsum INR]. replace (4 * 0 - 2) with (-2) by ring. replace (4 * 1 - 2) with 2 by ring.
  replace (- (1 / 2) * (0 + ((-2 - 2) / 1) ^ 2)) with (-8) by field.
  replace (- (1 / 2) * (0 + ((2 - -2) / 1) ^ 2)) with (-8) by field.
  assert (H := exp_pos (-8)). set (e := exp (-8)) in *.
  match goal with |- ?a < 0 => replace a with (- 3 * e) by field end. lra.
Qed.
Print Assumptions C73_batch_refuted.

(** The Gaussian kernel itself is symmetric and positive semi-definite *)
Theorem C73_gaussian_kernel : forall d b, (forall i, (i < d)%nat -> b i <> 0) ->
  (forall x y, gaussian_call d b x y = gaussian_call d b y x)
  /\ forall n (x : nat -> vec) (c : nat -> R), 0 <= sumn n (fun i => sumn n (fun j => c i * c j * gaussian_call d b (x i) (x j))).
Proof.
  intros d b Hb. split; [intros; apply gaussian_sym|]. intros n x c.
  assert (H := gaussian_psd d n b x Hb c). rewrite vsum_sumn in H.
  match type of H with 0 <= ?a => match goal with |- 0 <= ?b => replace b with a; [exact H|] end end.
  apply sumn_ext. intros i Hi. apply vsum_sumn.
Qed.
Print Assumptions C73_gaussian_kernel.

Example C73_gaussian_kernel_ex :
  0 <= sumn 2 (fun i => sumn 2 (fun j => (1 - 2 * INR i) * (1 - 2 * INR j) * gaussian_call 1 (fun _ => 2) (fun _ => INR i) (fun _ => INR j))).
Proof.
  apply (C73_gaussian_kernel 1 (fun _ => 2) ltac:(intros; lra)).
Qed.

(** * C26 and C74 *)

Theorem C26_relabel : forall K n vals grads s i c, relabels n s ->
  kernelised_grad K (fun j => vals (s j)) (fun j => grads (s j)) (full_batch n) i c
  = kernelised_grad K vals grads (full_batch n) (s i) c.
Proof.
  intros K n vals grads s i c Hs. unfold kernelised_grad, full_batch. f_equal. rewrite !lsum_seq.
  apply (vsum_perm n s (fun j => - k_call K (vals j) (vals (s i)) * grads j c + k_grad_x K (vals j) (vals (s i)) c) Hs).
Qed.
Print Assumptions C26_relabel.

Example C26_relabel_ex : forall c,
  kernelised_grad (gaussian 1 (fun _ => 1)) (fun j _ => INR (rotate3 j)) (fun j _ => 2 * INR (rotate3 j)) (full_batch 3) 0 c
  = kernelised_grad (gaussian 1 (fun _ => 1)) (fun j _ => INR j) (fun j _ => 2 * INR j) (full_batch 3) 1 c.
Proof.
  intros c. apply (C26_relabel (gaussian 1 (fun _ => 1)) 3 (fun j _ => INR j) (fun j _ => 2 * INR j) rotate3 0 c rotate3_relabels).
Qed.

(** One particle, or any number of particles at one point with one gradient *)
Theorem C26_one_particle : forall d b n vals grads i c, (0 < n)%nat -> (i < n)%nat -> (c < d)%nat ->
  (forall j, (j < n)%nat -> vals j = vals i /\ grads j = grads i) ->
  kernelised_grad (gaussian d b) vals grads (full_batch n) i c = - grads i c.
Proof.
  intros d b n vals grads i c Hn Hi Hc H. unfold kernelised_grad, full_batch. rewrite lsum_seq, seq_length.
  rewrite (vsum_ext n _ (fun _ => - grads i c)).
  - rewrite vsum_const. field. apply not_0_INR. lia.
  - intros j Hj. destruct (H j Hj) as [-> ->]. cbn [k_call k_grad_x gaussian].
    assert (E : gaussian_call d b (vals i) (vals i) = 1).
    { unfold gaussian_call. rewrite (vsum_ext d _ (fun _ => 0)), vsum_0, Rmult_0_r; [apply exp_0|].
      intros l Hl. unfold Rdiv. ring. }
    unfold gaussian_grad_x. rewrite E. unfold Rdiv. ring.
Qed.
Print Assumptions C26_one_particle.

Example C26_one_particle_ex :
  kernelised_grad (gaussian 2 (fun _ => 3)) (fun _ _ => 7) (fun _ c => INR c + 1) (full_batch 1) 0 1%nat = - 2.
Proof.
  rewrite (C26_one_particle 2 (fun _ => 3) 1 (fun _ _ => 7) (fun _ c => INR c + 1) 0 1); [cbn; ring|lia|lia|lia|].
  intros j Hj. split; reflexivity.
Qed.

(** The repulsions of the particles cancel: the sum of the directions is minus the
    kernel-smoothed sum of the gradients. *)
Theorem C74_mean_direction : forall d b n vals grads c, (0 < n)%nat -> (c < d)%nat ->
  sumn n (fun i => kernelised_grad (gaussian d b) vals grads (full_batch n) i c)
  = - sumn n (fun i => sumn n (fun j => gaussian_call d b (vals j) (vals i) * grads j c)) / INR n.
Proof.
  intros d b n vals grads c Hn Hc.
  replace (sumn n (fun i => sumn n (fun j => gaussian_call d b (vals j) (vals i) * grads j c)))
    with (vsum n (fun i => vsum n (fun j => gaussian_call d b (vals j) (vals i) * grads j c))).
  2:{ etransitivity; [apply vsum_sumn|]. apply sumn_ext. intros i Hi. apply vsum_sumn. }
  etransitivity; [symmetry; apply vsum_sumn|]. unfold kernelised_grad, full_batch.
  rewrite (vsum_ext n _ (fun i => / INR n * (vsum n (fun j => -1 * (gaussian_call d b (vals j) (vals i) * grads j c))
     + vsum n (fun j => gaussian_grad_x d b (vals j) (vals i) c)))).
  2:{ intros i Hi. rewrite lsum_seq, seq_length. unfold Rdiv. rewrite Rmult_comm. f_equal. rewrite <- vsum_plus.
      apply vsum_ext. intros j Hj. cbn [k_call k_grad_x gaussian]. ring. }
  rewrite vsum_scal, vsum_plus.
  assert (Hanti : vsum n (fun i => vsum n (fun j => gaussian_grad_x d b (vals j) (vals i) c)) = 0).
  { set (X := vsum n _). assert (E : X = - X); [|lra]. unfold X at 1. rewrite vsum_swap.
    transitivity (-1 * X); [|ring]. unfold X. rewrite <- vsum_scal. apply vsum_ext. intros i Hi. rewrite <- vsum_scal.
    apply vsum_ext. intros j Hj. unfold gaussian_grad_x. rewrite (gaussian_sym d b (vals i) (vals j)).
    unfold Rdiv. ring. }
  rewrite Hanti. erewrite (vsum_ext n (fun i => vsum n (fun j => -1 * _))).
  2:{ intros i Hi. apply vsum_scal. }
  rewrite vsum_scal. unfold Rdiv. ring.
Qed.
Print Assumptions C74_mean_direction.

Example C74_mean_direction_ex :
  sumn 2 (fun i => kernelised_grad (gaussian 1 (fun _ => 1)) (fun j _ => INR j) (fun _ _ => 0) (full_batch 2) i 0%nat) = 0.
Proof.
  rewrite C74_mean_direction by lia. cbn [sumn]. replace (INR 2) with 2 by (cbn; ring). field.
Qed.

(** A sampler keeps the batch size of its first run: with two and then three
    particles the second run draws batches of two at random. *)
Theorem C26_reuse_refuted : exists ns, svgd_runs ns None <> map (fun _ => true) ns.
Proof. exists [2; 3]%nat. cbn. discriminate. Qed.
Print Assumptions C26_reuse_refuted.

(** With one number of particles every run uses all of them. *)
Theorem C26_reuse_partial : forall n r, svgd_runs (repeat n r) None = repeat true r.
Proof.
  intros n [|r]; [reflexivity|]. cbn [repeat svgd_runs svgd_startup fst snd]. rewrite Nat.eqb_refl. f_equal.
  induction r as [|r IH]; [reflexivity|]. cbn [repeat svgd_runs svgd_startup fst snd]. rewrite Nat.eqb_refl, IH. reflexivity.
Qed.
Print Assumptions C26_reuse_partial.
Example C26_reuse_partial_ex : svgd_runs [4; 4; 4]%nat None = [true; true; true].
Proof. apply (C26_reuse_partial 4 3). Qed.
