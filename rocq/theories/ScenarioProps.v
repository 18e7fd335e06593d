(** Property theorems C08 and C09. *)
From Coq Require Import Reals List Lra.
From Coquelicot Require Import Coquelicot.
From Verif Require Import ScenarioModel ScenarioSpec ScenarioProofs.
Import ListNotations.
Open Scope R_scope.

(** * C08 *)
(** Any construction followed by any assignments to prior, likelihood and
    temperature.  Missing: assignments to [potential] itself, refuted below. *)
Theorem C08_assignments_partial :
  forall (K : Type) (n : nat) (grad : @pot K -> @gradfn K),
  (forall f x k, differentiable n (fun y => f y k) x -> is_grad n (fun y => f y k) x (grad f x k)) ->
  forall (upot uprior ulik : option pot) (ct kt : option R) (s : scen),
  construct upot uprior ulik ct kt true = Some s ->
  forall h, List.Forall not_potential h ->
  let s' := fold_left setattr h s in
  forall x k,
    potential s' x k
    = cur_prior (s_prior s) h x k + cur_temp (s_temp s) h * cur_lik (s_lik s) h x k
    /\ exists g, grad_potential grad s' x k = Some g
       /\ potential_and_grad grad s' x k = Some (potential s' x k, g)
       /\ (differentiable n (fun y => cur_prior (s_prior s) h y k) x ->
           differentiable n (fun y => cur_lik (s_lik s) h y k) x ->
           is_grad n (fun y => potential s' y k) x g).
Proof.
  intros K n grad Hg a b c ct kt s Hc h Hh s' x k.
  pose proof (history_inv h s (construct_inv _ _ _ _ _ _ _ Hc) Hh) as Hi. fold s' in Hi.
  destruct (setattr_slots h s) as (E1 & E2 & E3 & E4). fold s' in E1, E2, E3, E4.
  split.
  - rewrite inv_values by exact Hi. now rewrite E1, E2, E3.
  - assert (Hs : s_grads s <> None).
    { unfold construct in Hc. destruct a, c; inversion Hc; subst; discriminate. }
    assert (Hs' : s_grads s' <> None) by tauto.
    destruct (potential_and_grad grad s' x k) as [[v g]|] eqn:E.
    + destruct (inv_and_grad grad s' x k Hi v g E) as [-> Hgp].
      exists g. split; [exact Hgp|]. split; [reflexivity|].
      rewrite <- E1, <- E2. intros Hp Hl. exact (inv_grad grad n Hg s' x k Hi Hp Hl g Hgp).
    + exfalso. unfold potential_and_grad in E. destruct (s_grads s') as [[]|]; congruence.
Qed.
Print Assumptions C08_assignments_partial.

(** The same for the potential at any temperature, whatever the scenario's own
    is (as a tempered SMC sampler evaluates it).  Missing: as above. *)
Theorem C08_tempered_partial :
  forall (K : Type) (n : nat) (grad : @pot K -> @gradfn K),
  (forall f x k, differentiable n (fun y => f y k) x -> is_grad n (fun y => f y k) x (grad f x k)) ->
  forall (upot uprior ulik : option pot) (ct kt : option R) (s : scen),
  construct upot uprior ulik ct kt true = Some s ->
  forall h, List.Forall not_potential h ->
  let s' := fold_left setattr h s in
  forall x T k,
    tempered_potential s' x T k = cur_prior (s_prior s) h x k + T * cur_lik (s_lik s) h x k
    /\ exists g, grad_tempered_potential grad s' x T k = Some g
       /\ (differentiable n (fun y => cur_prior (s_prior s) h y k) x ->
           differentiable n (fun y => cur_lik (s_lik s) h y k) x ->
           is_grad n (fun y => cur_prior (s_prior s) h y k + T * cur_lik (s_lik s) h y k) x g).
Proof.
  intros K n grad Hg a b c ct kt s Hc h Hh s' x T k.
  pose proof (history_inv h s (construct_inv _ _ _ _ _ _ _ Hc) Hh) as Hi. fold s' in Hi.
  destruct (setattr_slots h s) as (E1 & E2 & E3 & E4). fold s' in E1, E2, E3, E4.
  unfold tempered_potential. rewrite E1, E2. split; [reflexivity|].
  assert (Hs : s_grads s <> None).
  { unfold construct in Hc. destruct a, c; inversion Hc; subst; discriminate. }
  assert (Hs' : s_grads s' <> None) by tauto.
  destruct Hi as [_ Hi]. unfold grad_tempered_potential.
  destruct (s_grads s') as [[p l]|]; [|congruence]. inversion Hi; subst p l. eexists. split; [reflexivity|].
  rewrite <- E1, <- E2. intros Hp Hl.
  exact (is_grad_lin n (fun y => s_prior s' y k) (fun y => s_lik s' y k) x _ _ T (Hg _ _ _ Hp) (Hg _ _ _ Hl)).
Qed.
Print Assumptions C08_tempered_partial.

Example C08_tempered_example :
  exists s, construct (K:=unit) None (Some (fun x _ => x 0%nat * x 0%nat)) (Some (fun x _ => x 1%nat)) None None true = Some s
  /\ tempered_potential (fold_left setattr [SetTemp (1/2); SetLik (fun x _ => 3 * x 1%nat)] s) (fun _ => 2) 2 tt = 16.
Proof. eexists; split; [reflexivity|]. unfold tempered_potential. cbn. lra. Qed.

(** After assigning [potential], [grad_potential] is still the gradient of the
    old target, and [potential_and_grad] returns the old value. *)
Theorem C08_assign_potential_refuted :
  forall (grad : @pot unit -> @gradfn unit),
  (forall f x k, differentiable 1 (fun y => f y k) x -> is_grad 1 (fun y => f y k) x (grad f x k)) ->
  exists (s : scen) (f : pot) (x g : point),
    construct (Some (fun _ _ => 0)) None None None None true = Some s
    /\ differentiable 1 (fun y => f y tt) x
    /\ grad_potential grad (setattr s (SetPotential f)) x tt = Some g
    /\ ~ is_grad 1 (fun y => potential (setattr s (SetPotential f)) y tt) x g
    /\ option_map fst (potential_and_grad grad (setattr s (SetPotential f)) x tt)
       <> Some (potential (setattr s (SetPotential f)) x tt).
Proof.
  intros grad Hg. eexists. exists (fun y _ => y 0%nat), (fun _ => 1). eexists.
  split; [reflexivity|].
  assert (D : is_grad 1 (fun y => y 0%nat) (fun _ => 1) (fun _ => 1)).
  { intros h. simpl. auto_derive; [trivial|ring]. }
  split; [exists (fun _ => 1); exact D|].
  split; [reflexivity|]. split.
  - intros H. cbn in H.
    assert (Z : is_grad 1 (fun _ => 0) (fun _ => 1)
                 (grad (fun (_ : point) (_ : unit) => 0) (fun _ => 1) tt)).
    { apply (Hg (fun _ _ => 0)). exists (fun _ => 0). apply is_grad_const. }
    specialize (H (fun _ => 1)). specialize (D (fun _ => 1)). specialize (Z (fun _ => 1)).
    pose proof (is_derive_unique _ _ _ H) as U1. pose proof (is_derive_unique _ _ _ D) as U2.
    pose proof (is_derive_unique _ _ _ Z) as U3.
    cbn [dotn] in U1, U2, U3. unfold potential in U1. cbn [s_potential refresh s_grads init_grad] in U1.
    rewrite Derive_const in U3. cbn in U1.
    change (Derive (fun t : R => 1 + t * 1) 0 = 0 + 1 * 1) in U2. lra.
  - cbn. intros H. inversion H. lra.
Qed.
Print Assumptions C08_assign_potential_refuted.

Example C08_example :
  exists s, construct (K:=unit) None (Some (fun x _ => x 0%nat * x 0%nat)) (Some (fun x _ => x 1%nat)) None None true = Some s
  /\ potential (fold_left setattr [SetTemp (1/2); SetLik (fun x _ => 3 * x 1%nat)] s) (fun _ => 2) tt = 7.
Proof. eexists; split; [reflexivity|]. cbn. unfold tempered_potential. cbn. lra. Qed.

(** * C09 *)
(** What construction does for each combination of user functions (with
    [potential] and [prior_potential] both given and no likelihood the target
    is their sum; with a likelihood a given [potential] is discarded). *)
Theorem C09_construct_partial :
  forall (K : Type) (upot uprior ulik : option (@pot K)) (kt : option R) (ig : bool) (x : point) (k : K),
  match construct upot uprior ulik None kt ig with
  | None => upot = None /\ ulik = None
  | Some s =>
      s_temp s = 1
      /\ (uprior = None -> ulik = None -> forall f, upot = Some f -> potential s x k = f x k)
      /\ (forall p l, uprior = Some p -> ulik = Some l -> potential s x k = p x k + l x k)
      /\ (uprior = None -> forall l, ulik = Some l -> potential s x k = l x k)
      /\ (forall p f, uprior = Some p -> upot = Some f -> ulik = None -> potential s x k = p x k + f x k)
  end.
Proof.
  intros K [f|] [p|] [l|] kt ig x k; cbn; auto; destruct ig; cbn;
    (split; [reflexivity|]); unfold potential, tempered_potential; cbn;
    repeat split; intros; try discriminate;
    repeat match goal with H : Some _ = Some _ |- _ => inversion H; clear H; subst end; ring.
Qed.
Print Assumptions C09_construct_partial.

(** The density changes when both [potential] and [prior_potential] are given. *)
Theorem C09_potential_and_prior_refuted :
  exists (f p : @pot unit) (s : scen) (x : point),
    construct (Some f) (Some p) None None None true = Some s
    /\ s_temp s = 1 /\ potential s x tt <> f x tt.
Proof.
  exists (fun x _ => x 0%nat), (fun _ _ => 1). eexists. exists (fun _ => 0).
  split; [reflexivity|]. split; [reflexivity|]. cbn. unfold tempered_potential. cbn. lra.
Qed.
Print Assumptions C09_potential_and_prior_refuted.

(** A [temperature] keyword has no effect on a plain scenario. *)
Theorem C09_temperature_keyword_refuted :
  exists (f : @pot unit) (s : scen),
    construct (Some f) None None None (Some (1/2)) true = Some s /\ s_temp s <> 1/2.
Proof. exists (fun _ _ => 0). eexists. split; [reflexivity|]. cbn. lra. Qed.
Print Assumptions C09_temperature_keyword_refuted.
