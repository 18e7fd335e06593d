(** Proofs about scenarios. *)
From Coq Require Import Reals List Lra.
From Coquelicot Require Import Coquelicot.
From Verif Require Import ScenarioModel ScenarioSpec.
Import ListNotations.
Open Scope R_scope.

Lemma dotn_plus n g1 g2 h c : dotn n (fun i => g1 i + c * g2 i) h = dotn n g1 h + c * dotn n g2 h.
Proof. induction n as [|n IH]; simpl; [ring|rewrite IH; ring]. Qed.

Lemma is_grad_lin n f1 f2 x g1 g2 c :
  is_grad n f1 x g1 -> is_grad n f2 x g2 ->
  is_grad n (fun y => f1 y + c * f2 y) x (fun i => g1 i + c * g2 i).
Proof.
  intros H1 H2 h. rewrite dotn_plus.
  apply (@is_derive_plus R_AbsRing R_NormedModule (fun t => f1 (fun i => x i + t * h i)) (fun t => c * f2 (fun i => x i + t * h i)) 0).
  - apply H1.
  - apply (is_derive_scal (fun t => f2 (fun i => x i + t * h i))). apply H2.
Qed.

Lemma is_grad_const n c x : is_grad n (fun _ => c) x (fun _ => 0).
Proof.
  intros h. replace (dotn n (fun _ => 0) h) with 0.
  - apply @is_derive_const.
  - induction n as [|n IH]; simpl; [ring|rewrite <- IH; ring].
Qed.

Section P.
  Context {K : Type}.
  Variable grad : @pot K -> @gradfn K.
  Variable n : nat.
  (** jax.grad returns the gradient where there is one. *)
  Hypothesis grad_correct : forall f x k, differentiable n (fun y => f y k) x ->
    is_grad n (fun y => f y k) x (grad f x k).

  (** The invariant: captured functions are the current ones and the potential
      is the scenario's own. *)
  Definition inv (s : @scen K) : Prop :=
    s_potential s = PLambda
    /\ match s_grads s with None => True | Some pl => pl = (s_prior s, s_lik s) end.

  Lemma construct_inv a b c ct kt ig s : construct a b c ct kt ig = Some s -> inv s.
  Proof.
    unfold construct. destruct a, c; intros H; inversion H; subst; destruct ig; split; simpl; auto.
  Qed.

  Definition not_potential (a : @assign K) : Prop :=
    match a with SetPotential _ => False | _ => True end.

  Lemma setattr_inv s a : inv s -> not_potential a -> inv (setattr s a).
  Proof.
    intros [H1 H2] Ha. destruct s as [p pr l t [[gp gl]|]], a; simpl in *; try tauto;
      split; simpl; auto; inversion H2; subst; auto.
  Qed.

  Lemma history_inv h s : inv s -> List.Forall not_potential h -> inv (fold_left setattr h s).
  Proof.
    revert s. induction h as [|a h IH]; intros s Hs Hh; simpl; auto.
    inversion Hh; subst. apply IH; auto. now apply setattr_inv.
  Qed.

  Lemma inv_values s x k : inv s ->
    potential s x k = s_prior s x k + s_temp s * s_lik s x k.
  Proof. intros [H _]. unfold potential. rewrite H. reflexivity. Qed.

  Lemma inv_and_grad s x k : inv s ->
    forall v g, potential_and_grad grad s x k = Some (v, g) ->
    v = potential s x k /\ grad_potential grad s x k = Some g.
  Proof.
    intros Hi v g. rewrite (inv_values s x k Hi). destruct Hi as [_ Hg].
    unfold potential_and_grad, grad_potential.
    destruct (s_grads s) as [[p l]|]; [|discriminate]. inversion Hg; subst.
    intros H; inversion H; subst. auto.
  Qed.

  Lemma inv_grad s x k : inv s ->
    differentiable n (fun y => s_prior s y k) x -> differentiable n (fun y => s_lik s y k) x ->
    forall g, grad_potential grad s x k = Some g -> is_grad n (fun y => potential s y k) x g.
  Proof.
    intros Hi Hp Hl g. pose proof Hi as [_ Hg]. unfold grad_potential.
    destruct (s_grads s) as [[p l]|] eqn:E; [|discriminate]. inversion Hg; subst.
    intros H; inversion H; subst.
    intros h. apply (is_derive_ext (fun t => s_prior s (fun i => x i + t * h i) k
                                     + s_temp s * s_lik s (fun i => x i + t * h i) k)).
    - intros t. symmetry. now apply inv_values.
    - exact (is_grad_lin n (fun y => s_prior s y k) (fun y => s_lik s y k) x _ _ (s_temp s)
               (grad_correct _ _ _ Hp) (grad_correct _ _ _ Hl) h).
  Qed.

  (** the values currently assigned *)
  Fixpoint cur_prior (p : @pot K) (h : list assign) : pot :=
    match h with [] => p | SetPrior f :: h' => cur_prior f h' | _ :: h' => cur_prior p h' end.
  Fixpoint cur_lik (p : @pot K) (h : list assign) : pot :=
    match h with [] => p | SetLik f :: h' => cur_lik f h' | _ :: h' => cur_lik p h' end.
  Fixpoint cur_temp (t : R) (h : list (@assign K)) : R :=
    match h with [] => t | SetTemp f :: h' => cur_temp f h' | _ :: h' => cur_temp t h' end.

  Lemma setattr_slots h : forall s : @scen K,
    s_prior (fold_left setattr h s) = cur_prior (s_prior s) h
    /\ s_lik (fold_left setattr h s) = cur_lik (s_lik s) h
    /\ s_temp (fold_left setattr h s) = cur_temp (s_temp s) h
    /\ (s_grads (fold_left setattr h s) = None <-> s_grads s = None).
  Proof.
    induction h as [|a h IH]; intros s; simpl; [tauto|].
    destruct (IH (setattr s a)) as (H1 & H2 & H3 & H4). rewrite H1, H2, H3, H4.
    destruct s as [p pr l t [[gp gl]|]], a; simpl; repeat split; auto; discriminate.
  Qed.
End P.
