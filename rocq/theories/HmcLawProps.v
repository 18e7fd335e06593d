(** C115: whole runs of Underdamped with the Metropolis correction are Markov
    chains with the Hamiltonian Monte Carlo kernel, and keep exp(-energy). *)
From Coq Require Import Reals List Arith Bool Lia Lra FunctionalExtensionality.
From Verif Require Import XR Keys LoopModel McmcModel McmcSpec HmcModel WeightsSpec UnbSpec UnbProofs KexpSpec KexpProofs
  ChainModel ChainSpec ChainProofs ChainProps HmcLawModel HmcLawSpec HmcLawProofs.
Import ListNotations.
Open Scope R_scope.

(** positions and momenta recorded by the run that reads the random stream [w] *)
Definition ud_run {W} (d : nat) (psamp : W -> vec) (nrm : W -> nat -> R) (unif : W -> R) (prior lik : vec -> xr * vec) (T : R)
  (L : nat) (p : hpar) (s0 : start) (m : option vec) (k : key) (n : nat) (w : key -> W) : list phase :=
  map (fun s => (h_value (core s), h_mom (core s)))
    (mcmc_run (ud_update d (fun k i => nrm (w k) i) (fun v _ => prior v) (fun v _ => lik v) T L (fun k => unif (w k))) n
              (ud_begin (fun k => psamp (w k)) (fun v _ => prior v) (fun v _ => lik v) T s0 m k p)).

(** where such a run starts *)
Definition first_mom (s0 : start) (m : option vec) : vec := match s0, m with Given _, Some m => m | _, _ => fun _ => 0 end.
Definition first_points {W} (psamp : W -> vec) (s0 : start) (m : option vec) (z : phase) : Prop :=
  snd z = first_mom s0 m
  /\ match s0 with Given v => fst z = v | Prior => exists u, fst z = psamp u | Zeros => fst z = fun _ => 0 end.
(** the damping of the momenta over one step; without a friction they are redrawn *)
Definition damping (p : hpar) : R := match h_friction p with Some g => exp (- (g * h_stepsize p)) | None => 0 end.

Lemma damping_ou p : damping p = ou_decay p.
Proof. unfold damping, ou_decay. destruct (h_friction p); [|reflexivity]. f_equal. lra. Qed.

Theorem C115_run_law :
  forall (W : Type) (P : law W) (unif : W -> R) (psamp : W -> vec) (nrm : W -> nat -> R) (prior lik : vec -> xr * vec) (T : R)
         (d L : nat) (p : hpar) (s0 : start) (m : option vec) (k : key) (n : nat),
  let pot := tempered_pot prior lik T in
  let grad := tempered_grad prior lik T in
  prob P ->
  (forall v, pot v <> NInf) ->
  hmc_uniform d pot grad (h_stepsize p) P unif nrm L (damping p) (first_points psamp s0 m) (n - 1) ->
  has_law P (ud_run d psamp nrm unif prior lik T L p s0 m k n)
    (fun phi => start_mean P psamp s0 (fun v =>
       chain_mean (hmc_kernel d pot grad (h_stepsize p) P nrm L (damping p)) (n - 1) (v, first_mom s0 m) phi)).
Proof.
  intros W P unif psamp nrm prior lik T d L p s0 m k n pot grad HP HU Hu. rewrite damping_ou in *.
  destruct (ud_run_drawn P HP unif nrm psamp d L prior lik T p HU (first_points psamp s0 m) n Hu s0 m k) as [ks H].
  - unfold starts, first_points. destruct s0; cbn [fst snd]; try (split; reflexivity).
    intros u. split; [reflexivity|]. exists u. reflexivity.
  - exact (drawn_has_law P ks _ _ H).
Qed.
Print Assumptions C115_run_law.

(** Started from the law proportional to exp(-energy) with respect to a measure
    that the trajectories and the refreshment of the momenta keep, every
    recorded point has that law. *)
Theorem C115_run_keeps_target :
  forall (W : Type) (P : law W) (unif : W -> R) (psamp : W -> vec) (nrm : W -> nat -> R) (prior lik : vec -> xr * vec) (T : R)
         (d L : nat) (p : hpar) (k : key) (n t : nat) (mu : law phase) (e : phase) (phi : phase -> R),
  let pot := tempered_pot prior lik T in
  let grad := tempered_grad prior lik T in
  prob P ->
  (forall v, pot v <> NInf) ->
  hmc_uniform d pot grad (h_stepsize p) P unif nrm L (damping p) (fun z => In z (map fst mu)) (n - 1) ->
  (forall f : phase -> R, mean mu (fun z => f (trajectory grad (h_stepsize p) L z)) = mean mu f) ->
  (forall f : phase -> R, mean mu (fun z => boltzmann d pot z * mean P (fun u => f (refreshed (damping p) z (nrm u))))
                        = mean mu (fun z => boltzmann d pot z * f z)) ->
  (t < n)%nat ->
  exists M : phase -> R,
    (forall z, In z (map fst mu) ->
       has_mean P (fun w => phi (nth t (ud_run d psamp nrm unif prior lik T L p (Given (fst z)) (Some (snd z)) k n w) e)) (M z))
    /\ mean mu (fun z => boltzmann d pot z * M z) = mean mu (fun z => boltzmann d pot z * phi z).
Proof.
  intros W P unif psamp nrm prior lik T d L p k n t mu e phi pot grad HP HU Hu HT HR Lt.
  exists (fun z => chain_mean (hmc_kernel d pot grad (h_stepsize p) P nrm L (damping p)) (n - 1) z (fun r => phi (nth t r e))). split.
  - intros z Hz.
    destruct (C115_run_law W P unif psamp nrm prior lik T d L p (Given (fst z)) (Some (snd z)) k n HP HU) as [ks H].
    + intros t' z' u Hr Ht. apply (Hu t' z' u); [|exact Ht]. clear - Hr Hz.
      induction Hr as [y [E1 E2]|t y u _ IH|t y u _ IH]; [|apply reach_stay, IH|apply reach_move, IH].
      apply reach_start. cbn in E1. destruct y, z; cbn in *; subst; exact Hz.
    + exists ks. specialize (H (fun r => phi (nth t r e))). cbn [start_mean first_mom] in H.
      destruct z as [q m]. exact H.
  - apply (hmc_chain_invariant P HP nrm d L pot grad (h_stepsize p) (damping p) HU mu HT HR phi e t (n - 1)). lia.
Qed.
Print Assumptions C115_run_keeps_target.

(** The trajectories are their own inverse, whatever the gradient. *)
Theorem C115_trajectory_involution :
  forall (grad : vec -> vec) (eps : R) (L : nat) (z : phase), trajectory grad eps L (trajectory grad eps L z) = z.
Proof. intros. apply trajectory_involution. Qed.
Print Assumptions C115_trajectory_involution.

(** Two positions, the negative one with half the density of the other, and a
    linear force: one step of size [sqrt 2] exchanges the position and the
    momentum, up to a factor. *)
Definition tilt (v : vec) : xr * vec := (if Rltb (v 0%nat) 0 then Fin (ln 2) else Fin 0, v).
Definition flat (v : vec) : xr * vec := (Fin 0, fun _ => 0).
Definition swing_par : hpar := HPar (sqrt 2) None.
Definition at_ (a b : R) : phase := (fun _ => sqrt 2 * a, fun _ => b).
Definition four : law phase := [(at_ 1 1, 1); (at_ 1 (-1), 1); (at_ (-1) 1, 1); (at_ (-1) (-1), 1)].

Lemma swing_trajectory a b : trajectory (tempered_grad tilt flat 1) (sqrt 2) 1 (at_ a b) = at_ b a.
Proof.
  assert (Q : sqrt 2 * sqrt 2 = 2) by (apply sqrt_sqrt; lra).
  unfold trajectory, at_, verlet, vkick, vdrift, tempered_grad. cbn. f_equal; apply functional_extensionality; intros _; set (r := sqrt 2) in *.
  - transitivity (r * a + r * b - r * r * (r * a) / 2); [field|rewrite Q; field].
  - transitivity (- b + r * r * a + r * r * b / 2 - r * r * (r * r) * a / 4); [field|rewrite Q; field].
Qed.
Lemma swing_refreshed a b (u : bool) : refreshed 0 (at_ a b) (coin_step u) = at_ a (if u then 1 else -1).
Proof.
  unfold refreshed, at_. cbn. f_equal. apply functional_extensionality. intros i.
  replace (1 - 0 * 0) with 1 by ring. rewrite sqrt_1. destruct u; cbn; ring.
Qed.

Lemma swing_pot a b : a = 1 \/ a = -1 -> tempered_pot tilt flat 1 (fst (at_ a b)) = Fin (if Rltb a 0 then ln 2 else 0).
Proof.
  assert (Q : 0 < sqrt 2) by (apply sqrt_lt_R0; lra).
  unfold tempered_pot, tilt, flat, at_. cbn. intros [-> | ->]; unfold Rltb.
  - destruct (Rlt_dec (sqrt 2 * 1) 0); [nra|]. destruct (Rlt_dec 1 0); [lra|]. cbn. f_equal. ring.
  - destruct (Rlt_dec (sqrt 2 * -1) 0); [|nra]. destruct (Rlt_dec (-1) 0); [|lra]. cbn. f_equal. ring.
Qed.
Lemma swing_energy a b : a = 1 \/ a = -1 -> b = 1 \/ b = -1 ->
  energy 1 (tempered_pot tilt flat 1) (at_ a b) = Fin ((if Rltb a 0 then ln 2 else 0) + / 2).
Proof.
  intros Ha Hb. unfold energy. rewrite swing_pot by exact Ha. cbn. f_equal. destruct Hb as [-> | ->]; field.
Qed.
Lemma swing_accept a b : a = 1 \/ a = -1 -> b = 1 \/ b = -1 ->
  accept (energy 1 (tempered_pot tilt flat 1) (at_ a b)) (energy 1 (tempered_pot tilt flat 1) (at_ b a))
  = if Rltb b 0 then (if Rltb a 0 then 1 else / 2) else 1.
Proof.
  pose proof ln2 as L2.
  intros Ha Hb. rewrite !swing_energy by assumption. cbn [accept].
  destruct Ha as [-> | ->], Hb as [-> | ->]; unfold Rltb; destruct (Rlt_dec 1 0); try lra; try destruct (Rlt_dec (-1) 0); try lra.
  - rewrite Rminus_diag_eq, exp_0 by reflexivity. apply Rmin_left. lra.
  - replace (0 + / 2 - (ln 2 + / 2)) with (0 - ln 2) by ring. rewrite exp_ln2. apply Rmin_right. lra.
  - replace (ln 2 + / 2 - (0 + / 2)) with (ln 2) by ring. rewrite exp_ln by lra. apply Rmin_left. lra.
  - rewrite Rminus_diag_eq, exp_0 by reflexivity. apply Rmin_left. lra.
Qed.

Definition corner (z : phase) : Prop := exists a b, (a = 1 \/ a = -1) /\ (b = 1 \/ b = -1) /\ z = at_ a b.
Lemma swing_reach (start0 : phase -> Prop) t z : (forall z, start0 z -> corner z) ->
  hmc_reach (tempered_grad tilt flat 1) (sqrt 2) coin_step 1 0 start0 t z -> corner z.
Proof.
  intros H0 H. induction H as [z H|t z u _ (a & b & Ha & Hb & ->)|t z u _ (a & b & Ha & Hb & ->)]; [apply H0, H| |];
    rewrite swing_refreshed; [exists a, (if u then 1 else -1)|rewrite swing_trajectory; exists (if u then 1 else -1), a];
    (repeat split; try assumption; destruct u; auto).
Qed.

Lemma swing_uniform (start0 : phase -> Prop) n : (forall z, start0 z -> corner z) ->
  hmc_uniform 1 (tempered_pot tilt flat 1) (tempered_grad tilt flat 1) (sqrt 2) coin coin_unif coin_step 1 0 start0 n.
Proof.
  intros H0 t z u H _. apply (swing_reach _ _ _ H0) in H. destruct H as (a & b & Ha & Hb & ->).
  cbv zeta. rewrite swing_refreshed, swing_trajectory, swing_accept by (assumption || (destruct u; auto)).
  intros g. rewrite mean_coin. unfold coin_unif, Rltb.
  destruct (Rlt_dec _ 0), (Rlt_dec a 0), (Rlt_dec 0 _), (Rlt_dec (/ 2) _); lra.
Qed.

(** From the denser position the sampler is at the other one after one step with
    probability 1/4, and the hypotheses of the theorems hold. *)
Example C115_example :
  has_mean coin (fun w => if Rltb (fst (nth 1 (ud_run 1 (fun _ _ => 0) coin_step coin_unif tilt flat 1 1 swing_par
                                                  (Given (fst (at_ 1 1))) None (KRoot 0) 3 w) (at_ 0 0)) 0%nat) 0 then 1 else 0) (/ 4)
  /\ (forall v, tempered_pot tilt flat 1 v <> NInf)
  /\ hmc_uniform 1 (tempered_pot tilt flat 1) (tempered_grad tilt flat 1) (h_stepsize swing_par) coin coin_unif coin_step 1
       (damping swing_par) (fun z => In z (map fst four)) 2
  /\ (forall f : phase -> R, mean four (fun z => f (trajectory (tempered_grad tilt flat 1) (h_stepsize swing_par) 1 z)) = mean four f)
  /\ (forall f : phase -> R,
       mean four (fun z => boltzmann 1 (tempered_pot tilt flat 1) z * mean coin (fun u => f (refreshed (damping swing_par) z (coin_step u))))
       = mean four (fun z => boltzmann 1 (tempered_pot tilt flat 1) z * f z)).
Proof.
  assert (HU : forall v, tempered_pot tilt flat 1 v <> NInf).
  { intros v. unfold tempered_pot, tilt, flat. cbn. destruct (Rltb _ _); discriminate. }
  cbn [h_stepsize swing_par]. change (damping swing_par) with 0.
  split; [|split; [exact HU|split; [|split]]].
  - destruct (C115_run_law bool coin coin_unif (fun _ _ => 0) coin_step tilt flat 1 1 1 swing_par (Given (fst (at_ 1 1))) None (KRoot 0) 3
                coin_prob HU) as [ks H].
    { cbn [h_stepsize swing_par]. change (damping swing_par) with 0. 
      intros t z u Hr _. cbv zeta.
      assert (Q : exists a b, (a = 1 \/ a = -1) /\ z = at_ a b).
      { clear u. induction Hr as [z [E1 E2]|t z u _ (a & b & Ha & ->)|t z u _ (a & b & Ha & ->)].
        - exists 1, 0. split; [auto|]. destruct z as [q m]. cbn in E1, E2. subst. reflexivity.
        - rewrite swing_refreshed. eauto.
        - rewrite swing_refreshed, swing_trajectory. exists (if u then 1 else -1), a. split; [destruct u; auto|reflexivity]. }
      destruct Q as (a & b & Ha & ->). rewrite swing_refreshed, swing_trajectory, swing_accept by (assumption || (destruct u; auto)).
      intros g. rewrite mean_coin. unfold coin_unif, Rltb.
      destruct (Rlt_dec _ 0), (Rlt_dec a 0), (Rlt_dec 0 _), (Rlt_dec (/ 2) _); lra. }
    exists ks. specialize (H (fun r => if Rltb (fst (nth 1 r (at_ 0 0)) 0%nat) 0 then 1 else 0)). cbv beta in H.
    cbn [start_mean first_mom h_stepsize swing_par] in H. change (damping swing_par) with 0 in H.
    match type of H with mean_on _ _ _ ?v => replace (/ 4) with v; [exact H|] end.
    clear. change ((fst (at_ 1 1), fun _ : nat => 0)) with (at_ 1 0). cbn [Nat.sub chain_mean nth].
    set (K := hmc_kernel _ _ _ _ _ _ _ _).
    transitivity (K (at_ 1 0) (fun y => if Rltb (fst y 0%nat) 0 then 1 else 0)).
    { apply (hmc_ext coin). intros y. cbn [nth]. apply (hmc_const coin coin_prob). }
    unfold K, hmc_kernel. rewrite mean_coin. cbv zeta. rewrite !swing_refreshed, !swing_trajectory, !swing_accept by auto.
    assert (Q : 0 < sqrt 2) by (apply sqrt_lt_R0; lra).
    cbn [fst at_]. unfold Rltb.
    destruct (Rlt_dec (sqrt 2 * 1) 0); [nra|]. destruct (Rlt_dec (sqrt 2 * -1) 0); [|nra].
    destruct (Rlt_dec 1 0); [lra|]. destruct (Rlt_dec (-1) 0); lra.
  - apply swing_uniform. unfold four. intros z [<-|[<-|[<-|[<-|[]]]]]; do 2 eexists; (split; [|split; [|reflexivity]]); auto.
  - intros f. unfold mean, four. cbn [map fst snd fold_right]. rewrite !swing_trajectory. cbn. ring.
  - intros f. unfold four, boltzmann. cbn [mean map fst snd fold_right]. unfold mean at 1 3. cbn [map fst snd fold_right Rsum].
    rewrite !mean_coin, !swing_refreshed, !swing_energy by auto. cbn. field.
Qed.
