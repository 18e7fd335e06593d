(** C108, C109: whole runs of the random-walk samplers are Markov chains with the
    Metropolis kernel, and keep the target. *)
From Coq Require Import Reals List Arith Bool Lia Lra FunctionalExtensionality.
From Verif Require Import XR Keys LoopModel McmcModel McmcSpec WeightsSpec UnbSpec UnbProofs KexpSpec KexpProofs
  ChainModel ChainSpec ChainProofs.
Import ListNotations.
Open Scope R_scope.

(** the run that reads the random stream [w] *)
Definition walk {W} (psamp : W -> vec) (nrm : W -> nat -> R) (U : vec -> W -> xr) (unif : W -> R) (h : R) (s0 : start)
  (k : key) (n : nat) (w : key -> W) : list (vec * xr) :=
  map (fun s => (rw_value (core s), rw_pot (core s)))
    (mcmc_run (rw_update (fun k i => nrm (w k) i) (fun x k => U x (w k)) (fun k => unif (w k))) n
              (rw_begin (fun k => psamp (w k)) (fun x k => U x (w k)) s0 k h)).

Lemma uniform_sub {W E A} (P : law W) unif nrm (U : vec -> E -> A) sc (first first' : vec -> Prop) acc n :
  (forall v, first' v -> first v) -> walk_uniform nrm U sc first P unif acc n -> walk_uniform nrm U sc first' P unif acc n.
Proof.
  intros H Hu t s z e R L. apply (Hu t); [|exact L].
  induction R as [x e' F|t s _ IH|t s z' e' _ IH x]; [apply reach_first, H, F|apply reach_kept, IH; lia|apply reach_moved, IH; lia].
Qed.

(** The recorded points and potentials are a Markov chain with the Metropolis
    kernel, with a potential evaluated once per proposal. *)
Theorem C108_run_law :
  forall (W : Type) (P : law W) (unif : W -> R) (psamp : W -> vec) (nrm : W -> nat -> R) (U : vec -> W -> xr) (h : R)
         (s0 : start) (k : key) (n : nat),
  prob P ->
  (forall x e, U x e <> NInf) ->
  walk_uniform nrm U (fun _ => sqrt h) (start_point psamp s0) P unif accept (n - 1) ->
  has_law P (walk psamp nrm U unif h s0 k n)
    (fun phi => start_mean P psamp s0 (fun v => mean P (fun e =>
       chain_mean (rw_kernel P nrm U h) (n - 1) (v, U v e) phi))).
Proof.
  intros W P unif psamp nrm U h s0 k n HP HU Hu.
  destruct (rw_run_drawn P HP unif nrm U HU psamp h s0 k n Hu) as [ks H]. exact (drawn_has_law P ks _ _ H).
Qed.
Print Assumptions C108_run_law.

(** Started from the target, every recorded state has the law of the target.  A
    start from the target is written as the sum over the starting points of the
    run's expectations weighted by the density at the start. *)
Theorem C108_run_keeps_target :
  forall (W : Type) (P : law W) (unif : W -> R) (psamp : W -> vec) (nrm : W -> nat -> R) (U : vec -> W -> xr) (h : R)
         (k : key) (n t : nat) (S : list vec) (d : vec * xr) (phi : vec * xr -> R),
  prob P ->
  (forall x e, U x e <> NInf) ->
  walk_uniform nrm U (fun _ => sqrt h) (fun v => In v S) P unif accept (n - 1) ->
  symmetric_steps P nrm ->
  NoDup S -> (forall x e, ~ In x S -> density (U x e) = 0) ->
  (t < n)%nat ->
  exists m : vec -> R,
    (forall v, In v S -> has_mean P (fun w => let r := walk psamp nrm U unif h (Given v) k n w in
                                    density (snd (nth 0 r d)) * phi (nth t r d)) (m v))
    /\ Rsum (map m S) = walk_target P U density S phi.
Proof.
  intros W P unif psamp nrm U h k n t S d phi HP HU Hu Hs HN HS L.
  exists (fun v => mean P (fun e => chain_mean (rw_kernel P nrm U h) (n - 1) (v, U v e)
     (fun r => density (snd (nth 0 r d)) * phi (nth t r d)))). split.
  - intros v Hv. destruct (C108_run_law W P unif psamp nrm U h (Given v) k n HP HU) as [ks H].
    { apply (uniform_sub P unif nrm U _ (fun v => In v S)); [intros ? ->; exact Hv|exact Hu]. }
    exists ks. apply (H (fun r => density (snd (nth 0 r d)) * phi (nth t r d))).
  - rewrite <- (chain_invariant P P HP HP nrm U accept density (fun _ => sqrt h) (fun v e v' e' => balance_sym _ _ (HU v e) (HU v' e'))
        Hs S HN HS phi d t (n - 1)) by lia.
    unfold walk_target. apply Rsum_ext. intros x _. apply mean_fext. intros e. unfold rw_kernel.
    rewrite <- (chain_scal P P nrm U accept). apply chain_ext. intros l. reflexivity.
Qed.
Print Assumptions C108_run_keeps_target.

(** the ABC run that reads the random stream [w] *)
Definition abc_walk {W Data} (psamp : W -> vec) (nrm : W -> nat -> R) (pr : vec -> W -> xr) (lik : vec -> W -> Data)
  (dist : Data -> xr) (unif : W -> R) (p : abc_par) (s0 : start) (k : key) (n : nat) (w : key -> W) : list (vec * (xr * Data)) :=
  map (fun s => (a_value (core s), (a_prior (core s), a_data (core s))))
    (mcmc_run (abc_update (fun k i => nrm (w k) i) (fun x k => pr x (w k)) (fun x k => lik x (w k)) dist (fun k => unif (w k))) n
              (abc_begin (fun k => psamp (w k)) (fun x k => pr x (w k)) (fun x k => lik x (w k)) dist s0 k p)).

Theorem C109_run_law :
  forall (W Data : Type) (P : law W) (unif : W -> R) (psamp : W -> vec) (nrm : W -> nat -> R) (pr : vec -> W -> xr)
         (lik : vec -> W -> Data) (dist : Data -> xr) (p : abc_par) (s0 : start) (k : key) (n : nat),
  prob P ->
  (forall x e, pr x e <> NInf) ->
  walk_uniform nrm (abc_eval pr lik) (fun i => sqrt (stepsize p i)) (start_point psamp s0) P unif (abc_accept dist (threshold p)) (n - 1) ->
  has_law P (abc_walk psamp nrm pr lik dist unif p s0 k n)
    (fun phi => start_mean P psamp s0 (fun v => mean (pair_law P P) (fun e =>
       chain_mean (abc_kernel P nrm pr lik dist (threshold p) (stepsize p)) (n - 1) (v, abc_eval pr lik v e) phi))).
Proof.
  intros W Data P unif psamp nrm pr lik dist p s0 k n HP HU Hu.
  destruct (abc_run_drawn P HP unif nrm pr lik dist (threshold p) HU psamp p eq_refl s0 k n Hu) as [ks H].
  exact (drawn_has_law P ks _ _ H).
Qed.
Print Assumptions C109_run_law.

(** Started from the ABC posterior (parameters with data inside the ball), every
    recorded state has that law. *)
Theorem C109_run_keeps_posterior :
  forall (W Data : Type) (P : law W) (unif : W -> R) (psamp : W -> vec) (nrm : W -> nat -> R) (pr : vec -> W -> xr)
         (lik : vec -> W -> Data) (dist : Data -> xr) (p : abc_par) (k : key) (n t : nat) (S : list vec)
         (d : vec * (xr * Data)) (phi : vec * (xr * Data) -> R),
  prob P ->
  (forall x e, pr x e <> NInf) ->
  walk_uniform nrm (abc_eval pr lik) (fun i => sqrt (stepsize p i)) (fun v => In v S) P unif (abc_accept dist (threshold p)) (n - 1) ->
  symmetric_steps P nrm ->
  NoDup S -> (forall x e, ~ In x S -> density (pr x e) = 0) ->
  (t < n)%nat ->
  let post := abc_density dist (threshold p) in
  exists m : vec -> R,
    (forall v, In v S -> has_mean P (fun w => let r := abc_walk psamp nrm pr lik dist unif p (Given v) k n w in
                                    post (snd (nth 0 r d)) * phi (nth t r d)) (m v))
    /\ Rsum (map m S) = walk_target (pair_law P P) (abc_eval pr lik) post S phi.
Proof.
  intros W Data P unif psamp nrm pr lik dist p k n t S d phi HP HU Hu Hs HN HS L post.
  exists (fun v => mean (pair_law P P) (fun e =>
     chain_mean (abc_kernel P nrm pr lik dist (threshold p) (stepsize p)) (n - 1) (v, abc_eval pr lik v e)
     (fun r => post (snd (nth 0 r d)) * phi (nth t r d)))). split.
  - intros v Hv. destruct (C109_run_law W Data P unif psamp nrm pr lik dist p (Given v) k n HP HU) as [ks H].
    { apply (uniform_sub P unif nrm (abc_eval pr lik) _ (fun v => In v S)); [intros ? ->; exact Hv|exact Hu]. }
    exists ks. apply (H (fun r => post (snd (nth 0 r d)) * phi (nth t r d))).
  - assert (HS' : forall x e, ~ In x S -> post (abc_eval pr lik x e) = 0).
    { intros x e Hx. unfold post, abc_density, abc_eval. cbn [fst]. rewrite HS by exact Hx. ring. }
    rewrite <- (chain_invariant P (pair_law P P) HP (pair_prob P P HP HP) nrm (abc_eval pr lik) (abc_accept dist (threshold p)) post
        (fun i => sqrt (stepsize p i)) (abc_balance pr lik dist (threshold p) HU) Hs S HN HS' phi d t (n - 1)) by lia.
    unfold walk_target. apply Rsum_ext. intros x _. apply mean_fext. intros e. unfold abc_kernel.
    rewrite <- (chain_scal P (pair_law P P) nrm (abc_eval pr lik) (abc_accept dist (threshold p))). apply chain_ext. intros l. reflexivity.
Qed.
Print Assumptions C109_run_keeps_posterior.

(** Two points on a line, the second with half the density of the first. *)
Definition coin : law bool := [(true, / 2); (false, / 2)].
Definition coin_step (b : bool) (i : nat) : R := if b then 1 else -1.
Definition coin_unif (b : bool) : R := if b then 0 else / 2.
Definition zero_one (x : vec) : xr :=
  if dec (x = fun _ => 0) then Fin 0 else if dec (x = fun _ => 1) then Fin (ln 2) else PInf.

Lemma coin_prob : prob coin. Proof. unfold prob, coin. cbn. field. Qed.
Lemma mean_coin f : mean coin f = (f true + f false) / 2.
Proof. unfold mean, coin. cbn. field. Qed.
Lemma vec_neq : (fun _ : nat => 1) <> (fun _ => 0).
Proof. intros H. apply (f_equal (fun f => f 0%nat)) in H. lra. Qed.
Lemma zero_one_0 : zero_one (fun _ => 0) = Fin 0.
Proof. unfold zero_one. destruct (dec _); [reflexivity|congruence]. Qed.
Lemma zero_one_1 : zero_one (fun _ => 1) = Fin (ln 2).
Proof.
  unfold zero_one. destruct (dec _) as [E|_]; [destruct (vec_neq E)|]. destruct (dec _); [reflexivity|congruence].
Qed.
Lemma zero_one_cases x : zero_one x = Fin 0 \/ zero_one x = Fin (ln 2) \/ zero_one x = PInf.
Proof. unfold zero_one. destruct (dec _); [auto|]. destruct (dec _); auto. Qed.
Lemma ln2 : 0 < ln 2. Proof. rewrite <- ln_1. apply ln_increasing; lra. Qed.
Lemma exp_ln2 : exp (0 - ln 2) = / 2.
Proof. replace (0 - ln 2) with (- ln 2) by lra. rewrite exp_Ropp, exp_ln by lra. reflexivity. Qed.

Lemma accept_cases x x' : accept (zero_one x) (zero_one x') = 0 \/ accept (zero_one x) (zero_one x') = / 2
  \/ accept (zero_one x) (zero_one x') = 1.
Proof.
  destruct (zero_one_cases x) as [-> | [-> | ->]], (zero_one_cases x') as [-> | [-> | ->]]; cbn; auto; pose proof ln2.
  - right. right. rewrite Rminus_0_r, exp_0. apply Rmin_left. lra.
  - right. left. rewrite exp_ln2. apply Rmin_right. lra.
  - right. right. apply Rmin_left. rewrite Rminus_0_r, exp_ln; lra.
  - right. right. rewrite Rminus_diag_eq, exp_0 by reflexivity. apply Rmin_left. lra.
Qed.

Lemma coin_uniform x (_ : bool) x' (_ : bool) : uniform_ok coin coin_unif (accept (zero_one x) (zero_one x')).
Proof.
  intros g. rewrite mean_coin. destruct (accept_cases x x') as [-> | [-> | ->]]; unfold coin_unif, Rltb;
    destruct (Rlt_dec 0 _), (Rlt_dec (/ 2) _); try lra.
Qed.

(** the sampler moves from the first point to the second with probability 1/4,
    and the hypotheses of both theorems hold *)
Example C108_example :
  has_mean coin (fun w => if dec (fst (nth 1 (walk (fun _ _ => 0) coin_step (fun x _ => zero_one x) coin_unif 1 Zeros (KRoot 0) 3 w)
                                               (fun _ => 0, PInf)) = fun _ => 1) then 1 else 0) (/ 4)
  /\ symmetric_steps coin coin_step
  /\ NoDup [(fun _ => 0) : vec; fun _ => 1]
  /\ (forall x (_ : bool), ~ In x [(fun _ => 0) : vec; fun _ => 1] -> density (zero_one x) = 0).
Proof.
  assert (HU : forall x (e : bool), zero_one x <> NInf).
  { intros x _. destruct (zero_one_cases x) as [-> | [-> | ->]]; discriminate. }
  split; [|split; [|split]].
  - destruct (C108_run_law bool coin coin_unif (fun _ _ => 0) coin_step (fun x _ => zero_one x) 1 Zeros (KRoot 0) 3 coin_prob HU
      (uniform_everywhere coin coin_unif coin_step _ _ _ accept _ coin_uniform))
      as [ks H].
    exists ks. specialize (H (fun r => if dec (fst (nth 1 r (fun _ => 0, PInf)) = fun _ => 1) then 1 else 0)). cbv beta in H. cbn [start_mean] in H.
    match type of H with mean_on _ _ _ ?v => replace (/ 4) with v; [exact H|] end.
    assert (K : forall s f, rw_kernel coin coin_step (fun x _ => zero_one x) 1 s f =
      (accept (snd s) (zero_one (fun i => fst s i + 1)) * f (fun i => fst s i + 1, zero_one (fun i => fst s i + 1))
       + (1 - accept (snd s) (zero_one (fun i => fst s i + 1))) * f s
       + (accept (snd s) (zero_one (fun i => fst s i - 1)) * f (fun i => fst s i - 1, zero_one (fun i => fst s i - 1))
       + (1 - accept (snd s) (zero_one (fun i => fst s i - 1))) * f s)) / 2).
    { intros s f. unfold rw_kernel, walk_kernel. rewrite mean_coin. cbv zeta. rewrite !mean_coin. unfold coin_step. rewrite sqrt_1.
      replace (fun i => fst s i + 1 * 1) with (fun i => fst s i + 1) by (apply functional_extensionality; intros; ring).
      replace (fun i => fst s i + 1 * -1) with (fun i => fst s i - 1) by (apply functional_extensionality; intros; ring).
      field. }
    rewrite mean_coin. cbn [Nat.sub]. 
    assert (C : forall s, chain_mean (rw_kernel coin coin_step (fun x _ => zero_one x) 1) 2 s
        (fun r => if dec (fst (nth 1 r (fun _ => 0, PInf)) = fun _ => 1) then 1 else 0)
      = rw_kernel coin coin_step (fun x _ => zero_one x) 1 s (fun y => if dec (fst y = fun _ => 1) then 1 else 0)).
    { intros s. cbn [chain_mean]. apply (kernel_ext coin coin coin_step (fun x _ => zero_one x)). intros y.
      etransitivity; [|apply (kernel_const coin coin coin_prob coin_prob coin_step (fun x _ => zero_one x) accept (fun _ => sqrt 1) y)]. reflexivity. }
    rewrite !C, K. cbn [fst snd]. rewrite zero_one_0.
    replace (fun _ : nat => 0 + 1) with (fun _ : nat => 1) by (apply functional_extensionality; intros; ring).
    replace (fun _ : nat => 0 - 1) with (fun _ : nat => -1) by (apply functional_extensionality; intros; ring).
    rewrite zero_one_1.
    assert (Z : zero_one (fun _ => -1) = PInf).
    { unfold zero_one. destruct (dec _) as [E|_]; [apply (f_equal (fun f => f 0%nat)) in E; lra|].
      destruct (dec _) as [E|_]; [apply (f_equal (fun f => f 0%nat)) in E; lra|reflexivity]. }
    rewrite Z. cbn [accept]. rewrite exp_ln2, Rmin_right by lra.
    destruct (dec (@eq vec (fun _ : nat => 1) (fun _ : nat => 1))) as [_|N]; [|congruence].
    destruct (dec (@eq vec (fun _ : nat => 0) (fun _ : nat => 1))) as [E|_]; [symmetry in E; destruct (vec_neq E)|].
    destruct (dec _); lra.
  - intros f. rewrite !mean_coin. unfold coin_step.
    replace (fun _ : nat => - (1)) with (fun _ : nat => -1) by (apply functional_extensionality; intros; ring).
    replace (fun _ : nat => - -1) with (fun _ : nat => 1) by (apply functional_extensionality; intros; ring). lra.
  - constructor; [|constructor; [intros []|constructor]]. intros [E|[]]. exact (vec_neq E).
  - intros x _ H. unfold zero_one. destruct (dec _) as [->|_]; [destruct H; left; reflexivity|].
    destruct (dec _) as [->|_]; [destruct H; right; left; reflexivity|reflexivity].
Qed.

(** A Gaussian potential, which takes infinitely many values: only the
    acceptances that the run can meet have to be decided rightly. *)
Definition gaussian (x : vec) (_ : bool) : xr := Fin (ln 2 * (x 0%nat * x 0%nat)).
Example C108_gaussian :
  walk_uniform coin_step gaussian (fun _ => sqrt 1) (start_point (fun (_ : bool) _ => 0) Zeros) coin coin_unif accept 1
  /\ has_mean coin (fun w => Rabs (fst (nth 1 (walk (fun _ _ => 0) coin_step gaussian coin_unif 1 Zeros (KRoot 0) 2 w)
                                               (fun _ => 0, PInf)) 0%nat)) (/ 2).
Proof.
  assert (A : forall z : bool, accept (Fin (ln 2 * (0 * 0))) (gaussian (fun i => 0 + sqrt 1 * coin_step z i) true) = / 2).
  { intros z. rewrite sqrt_1. unfold gaussian. cbn [accept]. rewrite <- exp_ln2.
    replace (ln 2 * (0 * 0) - ln 2 * ((0 + 1 * coin_step z 0) * (0 + 1 * coin_step z 0))) with (0 - ln 2) by (destruct z; cbn; ring).
    apply Rmin_right. rewrite exp_ln2. lra. }
  assert (Hu : walk_uniform coin_step gaussian (fun _ => sqrt 1) (start_point (fun _ : bool => fun _ => 0) Zeros) coin coin_unif accept 1).
  { intros t s z e R Lt. assert (t = 0%nat) as -> by lia. inversion R as [x e' F| |]. cbn [start_point] in F. subst x. cbn [fst snd].
    change (gaussian (fun _ => 0) e') with (Fin (ln 2 * (0 * 0))).
    change (gaussian (fun i => 0 + sqrt 1 * coin_step z i) e) with (gaussian (fun i => 0 + sqrt 1 * coin_step z i) true). rewrite A.
    intros g. rewrite mean_coin. unfold coin_unif, Rltb. destruct (Rlt_dec 0 (/ 2)), (Rlt_dec (/ 2) (/ 2)); lra. }
  split; [exact Hu|].
  destruct (C108_run_law bool coin coin_unif (fun _ _ => 0) coin_step gaussian 1 Zeros (KRoot 0) 2 coin_prob) as [ks H];
    [intros; discriminate|exact Hu|].
  exists ks. specialize (H (fun r => Rabs (fst (nth 1 r (fun _ => 0, PInf)) 0%nat))). cbv beta in H. cbn [start_mean] in H.
  match type of H with mean_on _ _ _ ?v => replace (/ 2) with v; [exact H|] end.
  rewrite mean_coin. cbn [Nat.sub chain_mean nth]. unfold rw_kernel, walk_kernel. rewrite !mean_coin. cbv zeta.
  cbn [fst snd]. change (gaussian (fun _ => 0) _) with (Fin (ln 2 * (0 * 0))).
  change (gaussian ?x false) with (gaussian x true). rewrite !A. cbn [coin_step]. rewrite sqrt_1, Rabs_R0.
  replace (0 + 1 * 1) with 1 by ring. replace (0 + 1 * -1) with (- (1)) by ring. rewrite Rabs_Ropp, Rabs_R1. lra.
Qed.

(** ABC on the two points with the same densities as prior: data is the point plus noise 0 or 1,
    observed 0.  From 0 the sampler moves to 1 with probability 1/8: proposed
    with 1/2, data hits the ball with 1/2, accepted then with 1/2. *)
Definition noisy (x : vec) (b : bool) : R := if b then x 0%nat - 1 else x 0%nat + 1.
Definition near (d : R) : xr := Fin (Rabs d).
Definition two_par : abc_par := ABCPar (Fin 1) (fun _ => 1) (fun _ => 0) (fun _ => 0).
Example C109_example :
  has_mean coin (fun w => if dec (fst (nth 1 (abc_walk (fun _ _ => 0) coin_step (fun x _ => zero_one x) noisy near coin_unif two_par
                                               (Given (fun _ => 0)) (KRoot 0) 2 w) (fun _ => 0, (PInf, 0))) = fun _ => 1) then 1 else 0) (/ 8)
  /\ uniform_ok coin coin_unif 0.
Proof.
  assert (HU : forall x (e : bool), zero_one x <> NInf).
  { intros x _. destruct (zero_one_cases x) as [-> | [-> | ->]]; discriminate. }
  assert (U0 : uniform_ok coin coin_unif 0).
  { intros g. rewrite mean_coin. unfold coin_unif, Rltb. destruct (Rlt_dec 0 0), (Rlt_dec (/ 2) 0); lra. }
  split; [|exact U0].
  destruct (C109_run_law bool R coin coin_unif (fun _ _ => 0) coin_step (fun x _ => zero_one x) noisy near two_par
              (Given (fun _ => 0)) (KRoot 0) 2 coin_prob HU
              (uniform_everywhere coin coin_unif coin_step _ _ _ _ _ (abc_uniform coin coin_unif _ noisy near (Fin 1) coin_uniform U0))) as [ks H].
  exists ks. specialize (H (fun r => if dec (fst (nth 1 r (fun _ => 0, (PInf, 0))) = fun _ => 1) then 1 else 0)). cbv beta in H.
  cbn [start_mean] in H.
  match type of H with mean_on _ _ _ ?v => replace (/ 8) with v; [exact H|] end.
  rewrite mean_pair, mean_coin, !mean_coin. cbn [Nat.sub chain_mean nth]. unfold abc_kernel, walk_kernel.
  rewrite !mean_coin. cbv zeta. rewrite !mean_pair, !mean_coin.
  cbn [two_par threshold stepsize fst snd]. unfold abc_accept, abc_eval. cbn [fst snd]. unfold coin_step. rewrite sqrt_1.
  replace (fun _ : nat => 0 + 1 * 1) with (fun _ : nat => 1) by (apply functional_extensionality; intros; ring).
  replace (fun _ : nat => 0 + 1 * -1) with (fun _ : nat => -1) by (apply functional_extensionality; intros; ring).
  rewrite zero_one_0, zero_one_1.
  assert (Z : zero_one (fun _ => -1) = PInf).
  { unfold zero_one. destruct (dec _) as [E|_]; [apply (f_equal (fun f => f 0%nat)) in E; lra|].
    destruct (dec _) as [E|_]; [apply (f_equal (fun f => f 0%nat)) in E; lra|reflexivity]. }
  rewrite Z. cbn [accept]. rewrite exp_ln2, Rmin_right by lra.
  unfold inside, near, noisy. cbn [xltb]. replace (1 - 1) with 0 by ring. rewrite Rabs_R0.
  replace (1 + 1) with 2 by ring. rewrite (Rabs_right 2) by lra.
  unfold Rltb. destruct (Rlt_dec 0 1) as [_|]; [|lra]. destruct (Rlt_dec 2 1) as [|_]; [lra|].
  destruct (dec (@eq vec (fun _ : nat => 1) (fun _ : nat => 1))) as [_|N]; [|congruence].
  destruct (dec (@eq vec (fun _ : nat => 0) (fun _ : nat => 1))) as [E|_]; [symmetry in E; destruct (vec_neq E)|].
  lra.
Qed.
