(** C103: ABC-MCMC leaves the ABC posterior invariant. *)
From Coq Require Import Reals List Arith Lra Lia FunctionalExtensionality.
From Verif Require Import XR Keys McmcModel McmcSpec McmcProofs AbcInvSpec AbcInvProofs.
Open Scope R_scope.

(** [m] parameter values [val] with prior potentials [pr], [d] data sets
    [data].  The chain's state number [s] is parameter [s / d] with data
    [s mod d].  A step proposes noise with law [phi] (even), simulates data
    from the likelihood [lik] and accepts with the sampler's acceptance
    probability.  The joint law of parameter and data restricted to the ball is
    left invariant by any number of steps, so that the parameter keeps the ABC
    posterior. *)
Theorem C103_abc_mcmc_invariant :
  forall (Data : Type) (m d : nat) (val : nat -> vec) (pr : nat -> xr) (data : nat -> Data)
         (dist : Data -> xr) (lik : nat -> nat -> R) (phi : vec -> R) (e : mextra abc_par) (al : xr),
  (forall i, (i < m)%nat -> finite (pr i) \/ pr i = PInf) ->
  (forall z, phi (fun i => - z i) = phi z) ->
  (forall c, 0 < stepsize (par e) c) ->
  let n := (m * d)%nat in
  let st (s : nat) := MState (ABC (val (s / d)%nat) (pr (s / d)%nat) (data (s mod d)) (dist (data (s mod d)))) al in
  let noise (s t : nat) := fun c => (val (t / d)%nat c - val (s / d)%nat c) / sqrt (stepsize (par e) c) in
  let q (s t : nat) := phi (noise s t) * lik (t / d)%nat (t mod d)%nat in
  let acc s t := xval (clean_alpha (abc_acceptance (st s) e (st t) e)) in
  let P := transition n q acc in
  let inside j := xltb (dist (data j)) (threshold (par e)) in
  let target (s : nat) := abc_joint pr lik inside (s / d)%nat (s mod d) in
  (** the noise is the one that makes the sampler propose [t] from [s] *)
  (forall s t k prior, core (fst (abc_proposal (fun _ => noise s t) prior (fun _ _ => data (t mod d)) dist
                                   (st s) (MExtra (iter e) k (par e))))
     = ABC (val (t / d)%nat) (prior (val (t / d)%nat) (KSplit k 4 2)) (data (t mod d)) (dist (data (t mod d))))
  /\ (forall s t, (s < n)%nat -> (t < n)%nat ->
        0 <= acc s t <= 1 /\ target s * q s t * acc s t = target t * q t s * acc t s)
  /\ (forall s, (s < n)%nat -> sum_upto n (P s) = 1)
  /\ (forall k s, (s < n)%nat -> push n P k target s = target s)
  /\ (forall k i, (i < m)%nat ->
        sum_upto d (fun j => push n P k target (i * d + j)%nat) = abc_posterior d pr lik inside i).
Proof.
  intros Data m d val pr data dist lik phi e al Hpr Hphi Hst n st noise q acc P inside target.
  assert (Hidx : forall s, (s < n)%nat -> (d <> 0 /\ s / d < m)%nat).
  { intros s Hs. assert (d <> 0)%nat by (intros ->; unfold n in Hs; lia). split; [assumption|].
    apply Nat.div_lt_upper_bound; [assumption|]. unfold n in Hs. lia. }
  assert (Hbal : forall s t, (s < n)%nat -> (t < n)%nat -> target s * q s t * acc s t = target t * q t s * acc t s).
  { intros s t Hs Ht. destruct (Hidx s Hs) as [_ Hs']. destruct (Hidx t Ht) as [_ Ht'].
    unfold acc. rewrite !abc_acc_value by (cbn; auto). cbn [core a_dist a_prior st].
    pose proof (rw_balance_x (pr (s / d)%nat) (pr (t / d)%nat) (Hpr _ Hs') (Hpr _ Ht')) as Hb.
    pose proof (even_noise phi (val (s / d)%nat) (val (t / d)%nat) (fun c => sqrt (stepsize (par e) c)) Hphi) as He.
    unfold target, abc_joint, q. unfold noise. rewrite He.
    fold (inside (s mod d)). fold (inside (t mod d)).
    set (ph := phi _). set (ls := lik (s / d)%nat _). set (lt := lik (t / d)%nat _).
    destruct (inside (s mod d)), (inside (t mod d)); try lra.
    transitivity (ls * lt * ph * (density (pr (s / d)%nat) * xval (clean_alpha (rw_acc_x (pr (s / d)%nat) (pr (t / d)%nat))))); [ring|].
    rewrite Hb. ring. }
  assert (Hinv : forall y, (y < n)%nat -> sum_upto n (fun x => target x * P x y) = target y)
    by (exact (balance_invariant n target q acc Hbal)).
  split; [|split; [|split; [|split]]].
  - intros s t k prior. cbn.
    assert (Hv : (fun i => val (s / d)%nat i + sqrt (stepsize (par e) i) * noise s t i) = val (t / d)%nat).
    { extensionality c. unfold noise. pose proof (sqrt_lt_R0 _ (Hst c)). field. lra. }
    rewrite Hv. reflexivity.
  - intros s t Hs Ht. split; [|exact (Hbal s t Hs Ht)].
    destruct (Hidx s Hs) as [_ Hs']. destruct (Hidx t Ht) as [_ Ht'].
    apply abc_acc_unit; cbn; auto.
  - exact (transition_rows n q acc).
  - intros k s Hs. exact (push_invariant n P target Hinv k s Hs).
  - intros k i Hi. rewrite <- joint_marginal. apply sum_upto_ext. intros j Hj.
    rewrite (push_invariant n P target Hinv) by (unfold n; nia).
    unfold target. f_equal.
    + rewrite Nat.div_add_l by lia. rewrite Nat.div_small by lia. lia.
    + rewrite Nat.add_comm, Nat.mod_add by lia. apply Nat.mod_small; lia.
Qed.
Print Assumptions C103_abc_mcmc_invariant.

(** Two parameters, two data sets of which one lies in the ball: the posterior
    weighs the parameters by their chance of hitting it. *)
Example C103_example :
  let pr := fun _ : nat => Fin 0 in
  let lik := fun i j : nat => if Nat.eqb i j then 3 / 4 else 1 / 4 in
  let inside := fun j : nat => xltb (Fin (INR j)) (Fin (1 / 2)) in
  abc_posterior 2 pr lik inside 0 = 3 / 4 /\ abc_posterior 2 pr lik inside 1 = 1 / 4
  /\ (forall z, exp (- (z 0%nat * z 0%nat)) = exp (- ((- z 0%nat) * (- z 0%nat)))).
Proof.
  intros pr lik inside. unfold abc_posterior, inside, pr, lik, density. cbn.
  unfold Rltb. destruct (Rlt_dec 0 (1 / 2)); [|lra]. destruct (Rlt_dec 1 (1 / 2)); [lra|].
  replace (exp (- 0)) with 1 by (rewrite Ropp_0, exp_0; reflexivity).
  repeat split; try lra. intros z. f_equal. ring.
Qed.
