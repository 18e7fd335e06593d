(** Lemmas for C103. *)
From Coq Require Import Reals List Arith Lra Lia FunctionalExtensionality.
From Verif Require Import XR Keys McmcModel McmcSpec McmcProofs AbcInvSpec.
Open Scope R_scope.

(** [RandomWalkABC.acceptance_probability] cleaned, as a function of the prior
    potentials and of the proposal being inside the ball *)
Lemma abc_acc_value {Data : Type} (rs : mstate (@abc_core Data)) (re : mextra abc_par)
      (ps : mstate (@abc_core Data)) (pe : mextra abc_par) :
  (finite (a_prior (core rs)) \/ a_prior (core rs) = PInf) ->
  (finite (a_prior (core ps)) \/ a_prior (core ps) = PInf) ->
  xval (clean_alpha (abc_acceptance rs re ps pe))
  = if xltb (a_dist (core ps)) (threshold (par re))
    then xval (clean_alpha (rw_acc_x (a_prior (core rs)) (a_prior (core ps)))) else 0.
Proof.
  intros H1 H2. unfold abc_acceptance, rw_acc_x.
  destruct (xltb _ _).
  - destruct H1 as [[a ->]| ->], H2 as [[b ->]| ->]; cbn.
    + rewrite Rmult_1_r. reflexivity.
    + rewrite Rmult_1_r. reflexivity.
    + unfold Rltb. destruct (Rlt_dec 0 1); [reflexivity|lra].
    + reflexivity.
  - destruct H1 as [[a ->]| ->], H2 as [[b ->]| ->]; cbn; unfold Rltb, Rleb;
      repeat match goal with |- context [Rle_dec ?x ?y] => destruct (Rle_dec x y)
                           | |- context [Rlt_dec ?x ?y] => destruct (Rlt_dec x y) end; cbn; try lra.
Qed.

Lemma abc_acc_unit {Data : Type} (rs : mstate (@abc_core Data)) (re : mextra abc_par)
      (ps : mstate (@abc_core Data)) (pe : mextra abc_par) :
  (finite (a_prior (core rs)) \/ a_prior (core rs) = PInf) ->
  (finite (a_prior (core ps)) \/ a_prior (core ps) = PInf) ->
  0 <= xval (clean_alpha (abc_acceptance rs re ps pe)) <= 1.
Proof.
  intros H1 H2. rewrite abc_acc_value by assumption.
  destruct (xltb _ _); [|lra].
  destruct (clean_alpha_rw_unit (a_prior (core rs)) (a_prior (core ps))) as (a & -> & Ha). exact Ha.
Qed.

Lemma push_invariant n P w :
  (forall y, (y < n)%nat -> sum_upto n (fun x => w x * P x y) = w y) ->
  forall k y, (y < n)%nat -> push n P k w y = w y.
Proof.
  intros H k. induction k; intros y Hy; [reflexivity|]. cbn [push].
  rewrite <- (H y Hy). apply sum_upto_ext. intros x Hx. rewrite IHk by exact Hx. reflexivity.
Qed.

Lemma joint_marginal d pr lik inside i :
  sum_upto d (abc_joint pr lik inside i) = abc_posterior d pr lik inside i.
Proof.
  unfold abc_posterior. rewrite <- sum_upto_scal. apply sum_upto_ext. intros j _.
  unfold abc_joint. destruct (inside j); lra.
Qed.

Lemma even_noise (phi : (nat -> R) -> R) (a b c : nat -> R) :
  (forall z, phi (fun i => - z i) = phi z) ->
  phi (fun i => (b i - a i) / c i) = phi (fun i => (a i - b i) / c i).
Proof.
  intros H. rewrite <- H. f_equal. extensionality i. unfold Rdiv. ring.
Qed.
