(** Lemmas about kernels and their derivatives. *)
From Coq Require Import Reals List Arith Lia Lra.
From Coquelicot Require Import Coquelicot.
From Verif Require Import ScenarioSpec SsmSpec KernelModel KernelSpec.
Import ListNotations.
Open Scope R_scope.

Lemma vsum_sumn d f : vsum d f = sumn d f.
Proof. induction d; cbn; congruence. Qed.
Lemma vsum_dotn d g h : dotn d g h = vsum d (fun i => g i * h i).
Proof. induction d; cbn; congruence. Qed.
Lemma vsum_ext d f g : (forall i, (i < d)%nat -> f i = g i) -> vsum d f = vsum d g.
Proof. induction d; intros H; cbn; [reflexivity|]. rewrite IHd, H; auto. Qed.
Lemma vsum_scal d c f : vsum d (fun i => c * f i) = c * vsum d f.
Proof. induction d; cbn; [ring|]. rewrite IHd. ring. Qed.
Lemma vsum_plus d f g : vsum d (fun i => f i + g i) = vsum d f + vsum d g.
Proof. induction d; cbn; [ring|]. rewrite IHd. ring. Qed.
Lemma vsum_0 d : vsum d (fun _ => 0) = 0.
Proof. induction d; cbn; [reflexivity|]. rewrite IHd. ring. Qed.
Lemma vsum_const d c : vsum d (fun _ => c) = INR d * c.
Proof. induction d; cbn [vsum]; [cbn; ring|]. rewrite IHd, S_INR. ring. Qed.
Lemma vsum_nonneg d f : (forall i, (i < d)%nat -> 0 <= f i) -> 0 <= vsum d f.
Proof. induction d; intros H; cbn; [lra|]. specialize (IHd ltac:(intros; apply H; lia)). specialize (H d ltac:(lia)). lra. Qed.
Lemma vsum_swap d e f : vsum d (fun i => vsum e (fun j => f i j)) = vsum e (fun j => vsum d (fun i => f i j)).
Proof.
  induction d; cbn; [symmetry; apply vsum_0|]. rewrite IHd, <- vsum_plus. reflexivity.
Qed.
Lemma vsum_axis d i f : (i < d)%nat -> vsum d (fun j => f j * axis i j) = f i.
Proof.
  intros Hi. induction d; [lia|]. cbn. unfold axis at 2. destruct (Nat.eqb_spec d i) as [->|H].
  - rewrite (vsum_ext i _ (fun _ => 0)), vsum_0; [ring|]. intros j Hj. unfold axis.
    destruct (Nat.eqb_spec j i); [lia|ring].
  - rewrite IHd by lia. ring.
Qed.

Lemma vsum_derive d (f : nat -> R -> R) l s : (forall i, (i < d)%nat -> is_derive (f i) s (l i)) ->
  is_derive (fun t => vsum d (fun i => f i t)) s (vsum d l).
Proof.
  induction d; intros H; cbn; [apply @is_derive_const|].
  apply @is_derive_plus; [apply IHd; intros; apply H; lia|apply H; lia].
Qed.
Lemma derive_prod f g s f' g' : is_derive f s f' -> is_derive g s g' ->
  is_derive (fun t => f t * g t) s (f' * g s + f s * g').
Proof. intros Hf Hg. apply (is_derive_mult f g s f' g' Hf Hg). intros; apply Rmult_comm. Qed.
Lemma derive_exp f s f' : is_derive f s f' -> is_derive (fun t => exp (f t)) s (f' * exp (f s)).
Proof. intros Hf. apply (is_derive_comp exp f s (exp (f s)) f'); [apply is_derive_exp|exact Hf]. Qed.
Lemma derive_scal_r f s f' c : is_derive f s f' -> is_derive (fun t => f t * c) s (f' * c).
Proof.
  intros H. replace (f' * c) with (f' * c + f s * 0) by ring. apply (derive_prod f (fun _ => c)); [exact H|].
  apply @is_derive_const.
Qed.
Lemma derive_eq (f : R -> R) s l l' : is_derive f s l -> l = l' -> is_derive f s l'.
Proof. intros H <-. exact H. Qed.

Lemma move_axis x i t : move x (axis i) t i = x i + t.
Proof. unfold move, axis. rewrite Nat.eqb_refl. ring. Qed.
Lemma axis_self i : axis i i = 1.
Proof. unfold axis. rewrite Nat.eqb_refl. reflexivity. Qed.

(** * quadratic forms along a line *)
Lemma sq_derive (a c h : R) s : is_derive (fun t => ((a + t * h) / c) ^ 2) s (2 * (a + s * h) * h / c / c).
Proof. auto_derive; [exact I|]. unfold Rdiv. ring. Qed.

Section Gaussian.
  Variable d : nat.
  Variable b : vec.

  Lemma gaussian_move_x x y h s :
    is_derive (fun t => gaussian_call d b (move x h t) y) s
              (dotn d (gaussian_grad_x d b (move x h s) y) h).
  Proof.
    unfold gaussian_call. eapply derive_eq.
    - apply derive_exp. apply (is_derive_scal (fun t => vsum d (fun i => ((move x h t i - y i) / b i) ^ 2))).
      apply (vsum_derive d (fun i t => ((move x h t i - y i) / b i) ^ 2)
        (fun i => 2 * ((x i - y i) + s * h i) * h i / b i / b i)).
      intros i Hi. apply (is_derive_ext (fun t => (((x i - y i) + t * h i) / b i) ^ 2)); [|apply sq_derive].
      intros t. unfold move. f_equal. f_equal. ring.
    - rewrite vsum_dotn. unfold gaussian_grad_x, gaussian_call. set (E := exp _).
      rewrite Rmult_comm, <- vsum_scal, <- vsum_scal. apply vsum_ext. intros i Hi. unfold move, Rdiv. simpl. rewrite Rmult_1_r, Rinv_mult.
      generalize (/ b i). intros ib. field.
  Qed.

  Lemma gaussian_sym x y : gaussian_call d b x y = gaussian_call d b y x.
  Proof.
    unfold gaussian_call. f_equal. f_equal. apply vsum_ext. intros i Hi. unfold Rdiv.
    replace (x i - y i) with (- (y i - x i)) by ring. ring.
  Qed.
  Lemma gaussian_grad_sym x y i : gaussian_grad_y d b x y i = gaussian_grad_x d b y x i.
  Proof. unfold gaussian_grad_x, gaussian_grad_y. rewrite gaussian_sym. reflexivity. Qed.

  Lemma gaussian_move_y x y h s :
    is_derive (fun t => gaussian_call d b x (move y h t)) s
              (dotn d (gaussian_grad_y d b x (move y h s)) h).
  Proof.
    apply (is_derive_ext (fun t => gaussian_call d b (move y h t) x)); [intros; apply gaussian_sym|].
    eapply derive_eq; [apply gaussian_move_x|]. rewrite !vsum_dotn. apply vsum_ext. intros i Hi.
    rewrite gaussian_grad_sym. reflexivity.
  Qed.

  Lemma gaussian_mixed x y i : (i < d)%nat -> b i <> 0 ->
    is_mixed (gaussian_call d b) x y i (gaussian_diag d b x y i).
  Proof.
    intros Hi Hb. exists (fun t => gaussian_grad_x d b (move x (axis i) 0) (move y (axis i) t) i). split.
    - intros t. eapply derive_eq; [apply gaussian_move_x|]. rewrite vsum_dotn. apply vsum_axis, Hi.
    - assert (E : forall t, gaussian_grad_x d b (move x (axis i) 0) (move y (axis i) t) i
        = (y i - x i + t) * (gaussian_call d b (move x (axis i) 0) (move y (axis i) t) * / b i ^ 2)).
      { intros t. unfold gaussian_grad_x. rewrite !move_axis. unfold Rdiv. ring. }
      apply (is_derive_ext (fun t => (y i - x i + t) * (gaussian_call d b (move x (axis i) 0) (move y (axis i) t) * / b i ^ 2)));
        [intros t; symmetry; apply E|].
      eapply derive_eq.
      + apply (derive_prod (fun t => y i - x i + t)).
        * instantiate (1 := 1). auto_derive; [exact I|ring].
        * apply derive_scal_r, gaussian_move_y.
      + rewrite vsum_dotn, vsum_axis by exact Hi.
        unfold gaussian_grad_y, gaussian_diag. rewrite !move_axis.
        assert (Em : forall z, gaussian_call d b (move x (axis i) 0) z = gaussian_call d b x z).
        { intros z. unfold gaussian_call. do 2 f_equal. apply vsum_ext. intros j Hj. unfold move. f_equal. f_equal. ring. }
        assert (Em' : gaussian_call d b x (move y (axis i) 0) = gaussian_call d b x y).
        { unfold gaussian_call. do 2 f_equal. apply vsum_ext. intros j Hj. unfold move. f_equal. f_equal. ring. }
        rewrite Em, Em'. match goal with |- @eq _ ?a ?b => change (@eq R a b) end. field. exact Hb.
  Qed.
End Gaussian.

Section Preconditioned.
  Variable d : nat.
  Variable b : R.
  Variable P : nat -> nat -> R.
  Hypothesis Hb : b <> 0.
  Hypothesis HP : forall i j, (i < d)%nat -> (j < d)%nat -> P i j = P j i.

  Lemma form_sym z h : vsum d (fun j => vsum d (fun i => h i * P i j) * z j) = vsum d (fun j => vsum d (fun i => z i * P i j) * h j).
  Proof.
    clear Hb.
    rewrite (vsum_ext d _ (fun j => vsum d (fun i => z j * P j i * h i))).
    2:{ intros j Hj. rewrite Rmult_comm, <- vsum_scal. apply vsum_ext. intros i Hi. rewrite (HP i j) by assumption. ring. }
    rewrite vsum_swap. apply vsum_ext. intros j Hj. rewrite Rmult_comm, <- vsum_scal. apply vsum_ext. intros; ring.
  Qed.

  Lemma pg_move_x x y h s :
    is_derive (fun t => pg_call d b P (move x h t) y) s (dotn d (pg_grad_x d b P (move x h s) y) h).
  Proof.
    set (z := fun i => (move x h s i - y i) / b).
    assert (Dz : forall i, is_derive (fun t => (move x h t i - y i) / b) s (h i / b)).
    { intros i. unfold move. auto_derive; [exact I|]. field. exact Hb. }
    unfold pg_call. cbv zeta. eapply derive_eq.
    - apply derive_exp. apply (is_derive_scal (fun t => vsum d (fun j =>
        vsum d (fun i => (move x h t i - y i) / b * P i j) * ((move x h t j - y j) / b)))).
      apply (vsum_derive d (fun j t => vsum d (fun i => (move x h t i - y i) / b * P i j) * ((move x h t j - y j) / b))
        (fun j => vsum d (fun i => h i / b * P i j) * z j + vsum d (fun i => z i * P i j) * (h j / b))).
      intros j Hj. apply (derive_prod (fun t => vsum d (fun i => (move x h t i - y i) / b * P i j))); [|apply Dz].
      apply (vsum_derive d (fun i t => (move x h t i - y i) / b * P i j) (fun i => h i / b * P i j)).
      intros i Hi. apply derive_scal_r, Dz.
    - rewrite vsum_plus, (form_sym z (fun i => h i / b)). rewrite vsum_dotn. unfold pg_grad_x, pg_call. cbv zeta.
      change (fun j => vsum d (fun i => (move x h s i - y i) / b * P i j) * ((move x h s j - y j) / b))
        with (fun j => vsum d (fun i => z i * P i j) * z j).
      set (E := exp _).
      transitivity (vsum d (fun j => (- E) * (vsum d (fun i => z i * P i j) * (h j / b)))).
      { rewrite vsum_scal. match goal with |- @eq _ ?a ?b => change (@eq R a b) end. field. }
      apply vsum_ext. intros j Hj. transitivity (- vsum d (fun i => z i * P i j) / b * E * h j); [field; exact Hb|].
      f_equal. f_equal. replace (vsum d (fun j0 => P j j0 * (y j0 - move x h s j0))) with (- b * vsum d (fun i => z i * P i j)).
      { field. exact Hb. }
      rewrite <- vsum_scal. apply vsum_ext. intros i Hi. unfold z. rewrite (HP i j) by assumption. field. exact Hb.
  Qed.

  Lemma pg_sym x y : pg_call d b P x y = pg_call d b P y x.
  Proof.
    unfold pg_call. cbv zeta. do 2 f_equal. apply vsum_ext. intros j Hj.
    rewrite (vsum_ext d _ (fun i => -1 * ((y i - x i) / b * P i j))) by (intros; field; exact Hb).
    rewrite vsum_scal. field. exact Hb.
  Qed.
  Lemma pg_grad_sym x y i : pg_grad_y d b P x y i = pg_grad_x d b P y x i.
  Proof. unfold pg_grad_x, pg_grad_y. rewrite pg_sym. reflexivity. Qed.
  Lemma pg_move_y x y h s :
    is_derive (fun t => pg_call d b P x (move y h t)) s (dotn d (pg_grad_y d b P x (move y h s)) h).
  Proof.
    apply (is_derive_ext (fun t => pg_call d b P (move y h t) x)); [intros; apply pg_sym|].
    eapply derive_eq; [apply pg_move_x|]. rewrite !vsum_dotn. apply vsum_ext. intros i Hi.
    rewrite pg_grad_sym. reflexivity.
  Qed.
  Lemma pg_move0_x x y h : pg_call d b P (move x h 0) y = pg_call d b P x y.
  Proof.
    unfold pg_call. cbv zeta. do 2 f_equal. apply vsum_ext. intros j Hj. f_equal; [apply vsum_ext; intros i Hi|]; unfold move;
    unfold Rdiv; ring.
  Qed.
  Lemma pg_move0_y x y h : pg_call d b P x (move y h 0) = pg_call d b P x y.
  Proof. rewrite pg_sym, pg_move0_x. apply pg_sym. Qed.

  Lemma pg_mixed x y i : (i < d)%nat ->
    is_mixed (pg_call d b P) x y i
      ((P i i - (vsum d (fun j => P i j * ((x j - y j) / b))) ^ 2) / b ^ 2 * pg_call d b P x y).
  Proof.
    intros Hi. exists (fun t => pg_grad_x d b P (move x (axis i) 0) (move y (axis i) t) i). split.
    - intros t. eapply derive_eq; [apply pg_move_x|]. rewrite vsum_dotn. apply vsum_axis, Hi.
    - set (v := vsum d (fun j => P i j * ((x j - y j) / b))).
      assert (E : forall t, (- (v * b) + t * P i i) / b ^ 2 * pg_call d b P x (move y (axis i) t)
        = pg_grad_x d b P (move x (axis i) 0) (move y (axis i) t) i).
      { intros t. unfold pg_grad_x. rewrite pg_move0_x. f_equal. f_equal.
        rewrite <- (vsum_axis d i (fun j => t * P i j) Hi). unfold v.
        transitivity (- b * vsum d (fun j => P i j * ((x j - y j) / b)) + vsum d (fun j => t * P i j * axis i j)); [ring|].
        rewrite <- vsum_scal, <- vsum_plus. apply vsum_ext. intros j Hj. unfold move. field. exact Hb. }
      apply (is_derive_ext (fun t => (- (v * b) + t * P i i) / b ^ 2 * pg_call d b P x (move y (axis i) t))); [exact E|].
      eapply derive_eq.
      + apply (derive_prod (fun t => (- (v * b) + t * P i i) / b ^ 2)).
        * instantiate (1 := P i i / b ^ 2). auto_derive; [exact I|]. field. exact Hb.
        * apply pg_move_y.
      + rewrite vsum_dotn, vsum_axis by exact Hi. unfold pg_grad_y. rewrite pg_move0_y.
        assert (Ev : vsum d (fun j => P i j * (x j - move y (axis i) 0 j)) = b * v).
        { unfold v. rewrite <- vsum_scal. apply vsum_ext. intros j Hj. unfold move. field. exact Hb. }
        rewrite Ev. match goal with |- @eq _ ?a ?b => change (@eq R a b) end. field. exact Hb.
  Qed.
End Preconditioned.

Lemma derive_power f s f' beta : 0 < f s -> is_derive f s f' ->
  is_derive (fun t => Rpower (f t) beta) s (beta * f' * Rpower (f s) (beta - 1)).
Proof.
  intros Hp Hf. unfold Rpower at 1. eapply derive_eq.
  - apply derive_exp. apply (is_derive_scal (fun t => ln (f t))).
    apply (is_derive_comp ln f s (/ f s) f'); [apply is_derive_ln, Hp|exact Hf].
  - unfold scal. simpl. unfold mult. simpl. fold (Rpower (f s) beta).
    replace (Rpower (f s) beta) with (Rpower (f s) (beta - 1) * f s).
    2:{ rewrite <- (Rpower_1 (f s)) at 2 by exact Hp. rewrite <- Rpower_plus. f_equal. ring. }
    match goal with |- @eq _ ?a ?b => change (@eq R a b) end. field. lra.
Qed.

Section IMQ.
  Variable d : nat.
  Variables c beta : R.
  Variable b : vec.
  Hypothesis Hc : 0 < c.
  Hypothesis Hb : forall i, (i < d)%nat -> b i <> 0.

  Lemma imq_base_pos x y : 0 < imq_base d c b x y.
  Proof.
    unfold imq_base. assert (H : 0 <= vsum d (fun i => ((x i - y i) / b i) ^ 2)) by (apply vsum_nonneg; intros; apply pow2_ge_0).
    lra.
  Qed.
  Lemma imq_base_sym x y : imq_base d c b x y = imq_base d c b y x.
  Proof.
    unfold imq_base. do 2 f_equal. apply vsum_ext. intros i Hi. unfold Rdiv.
    replace (x i - y i) with (- (y i - x i)) by ring. ring.
  Qed.
  Lemma imq_base_move x y h s :
    is_derive (fun t => imq_base d c b (move x h t) y) s (vsum d (fun i => (move x h s i - y i) / b i / b i * h i)).
  Proof.
    unfold imq_base. eapply derive_eq.
    - apply @is_derive_plus; [apply @is_derive_const|].
      apply (is_derive_scal (fun t => vsum d (fun i => ((move x h t i - y i) / b i) ^ 2))).
      apply (vsum_derive d (fun i t => ((move x h t i - y i) / b i) ^ 2)
        (fun i => 2 * ((x i - y i) + s * h i) * h i / b i / b i)).
      intros i Hi. apply (is_derive_ext (fun t => (((x i - y i) + t * h i) / b i) ^ 2)); [|apply sq_derive].
      intros t. unfold move. f_equal. f_equal. ring.
    - unfold plus, zero. simpl. rewrite Rplus_0_l, <- vsum_scal. apply vsum_ext. intros i Hi. unfold move, Rdiv.
      generalize (/ b i). intros ib. field.
  Qed.

  (** the derivative in [x], with the division by the bandwidth *)
  Lemma imq_move_x x y h s :
    is_derive (fun t => imq_call d c beta b (move x h t) y) s
      (dotn d (fun i => imq_grad_x d c beta b (move x h s) y i / b i) h).
  Proof.
    unfold imq_call. eapply derive_eq; [apply derive_power; [apply imq_base_pos|apply imq_base_move]|].
    rewrite vsum_dotn. unfold imq_grad_x. rewrite (Rmult_comm beta), Rmult_assoc, Rmult_comm, <- vsum_scal.
    apply vsum_ext. intros i Hi. unfold Rdiv. ring.
  Qed.
  Lemma imq_sym x y : imq_call d c beta b x y = imq_call d c beta b y x.
  Proof. unfold imq_call. rewrite imq_base_sym. reflexivity. Qed.
  Lemma imq_grad_sym x y i : imq_grad_y d c beta b x y i = imq_grad_x d c beta b y x i / b i.
  Proof. unfold imq_grad_x, imq_grad_y. rewrite imq_base_sym. unfold Rdiv. ring. Qed.
  Lemma imq_move_y x y h s :
    is_derive (fun t => imq_call d c beta b x (move y h t)) s (dotn d (imq_grad_y d c beta b x (move y h s)) h).
  Proof.
    apply (is_derive_ext (fun t => imq_call d c beta b (move y h t) x)); [intros; apply imq_sym|].
    eapply derive_eq; [apply imq_move_x|]. rewrite !vsum_dotn. apply vsum_ext. intros i Hi.
    rewrite imq_grad_sym. reflexivity.
  Qed.
  Lemma imq_base_move0_x x y h : imq_base d c b (move x h 0) y = imq_base d c b x y.
  Proof.
    unfold imq_base. do 2 f_equal. apply vsum_ext. intros j Hj. unfold move. f_equal. f_equal. ring.
  Qed.
  Lemma imq_base_move0_y x y h : imq_base d c b x (move y h 0) = imq_base d c b x y.
  Proof. rewrite imq_base_sym, imq_base_move0_x. apply imq_base_sym. Qed.

  Lemma imq_mixed x y i : (i < d)%nat ->
    is_mixed (imq_call d c beta b) x y i
      ((- beta * Rpower (imq_base d c b x y) (beta - 1)
        - beta * (beta - 1) * ((x i - y i) / b i) ^ 2 * Rpower (imq_base d c b x y) (beta - 2)) / b i ^ 2).
  Proof.
    intros Hi. exists (fun t => imq_grad_x d c beta b (move x (axis i) 0) (move y (axis i) t) i / b i). split.
    - intros t. eapply derive_eq; [apply imq_move_x|]. rewrite vsum_dotn.
      apply (vsum_axis d i (fun i => imq_grad_x d c beta b (move x (axis i) 0) (move y (axis i) t) i / b i) Hi) || idtac.
      rewrite (vsum_axis d i (fun j => imq_grad_x d c beta b (move x (axis i) 0) (move y (axis i) t) j / b j) Hi). reflexivity.
    - assert (E : forall t, ((x i - y i) - t) * beta / b i ^ 2 * Rpower (imq_base d c b x (move y (axis i) t)) (beta - 1)
        = imq_grad_x d c beta b (move x (axis i) 0) (move y (axis i) t) i / b i).
      { intros t. unfold imq_grad_x. rewrite imq_base_move0_x, !move_axis. field. apply Hb, Hi. }
      apply (is_derive_ext (fun t => ((x i - y i) - t) * beta / b i ^ 2 * Rpower (imq_base d c b x (move y (axis i) t)) (beta - 1)));
        [exact E|].
      eapply derive_eq.
      + apply (derive_prod (fun t => ((x i - y i) - t) * beta / b i ^ 2)).
        * instantiate (1 := - beta / b i ^ 2). auto_derive; [exact I|]. field. apply Hb, Hi.
        * apply derive_power; [apply imq_base_pos|].
          apply (is_derive_ext (fun t => imq_base d c b (move y (axis i) t) x)); [intros; apply imq_base_sym|].
          apply imq_base_move.
      + rewrite (vsum_axis d i (fun j => (move y (axis i) 0 j - x j) / b j / b j) Hi). rewrite move_axis, imq_base_move0_y.
        replace (beta - 1 - 1) with (beta - 2) by ring.
        match goal with |- @eq _ ?a ?b => change (@eq R a b) end. field. apply Hb, Hi.
  Qed.
End IMQ.
