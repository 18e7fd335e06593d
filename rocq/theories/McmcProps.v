(** Property theorems C02, C11, C12, C13, C17, C27, C31, C32 (MCMC). *)
From Coq Require Import Reals List Arith Bool Lia Lra.
From Verif Require Import XR Keys LoopModel LoopSpec McmcModel McmcSpec McmcProofs.
Import ListNotations.
Open Scope R_scope.

(** C02: whatever the proposal, acceptance function and random stream, an MCMC
    run of requested length [n >= 1] from a counter at 0 has exactly [n] states,
    the i-th being the result of i updates; for the plain Metropolis correction,
    no correction, and Robbins-Monro adaptation around either. *)
Theorem C02_mcmc_run_length :
  forall (St P : Type) (always proposal : mstate St -> mextra P -> mstate St * mextra P) correction
         (n : nat) (init : mstate St * mextra P),
  (forall s e, iter (snd (always s e)) = iter e) ->
  (forall s e, iter (snd (proposal s e)) = iter e) ->
  (correction = @uncorrected St P
   \/ (exists uniform acc, correction = metropolis_correct uniform acc)
   \/ (exists cut adapt finish uniform acc, (forall s e, iter (snd (adapt s e)) = iter e)
         /\ correction = rm_correct cut adapt finish (metropolis_correct uniform acc))) ->
  (1 <= n)%nat -> iter (snd init) = 0%nat ->
  let chain := mcmc_run (mcmc_update always proposal correction) n init in
  length chain = n
  /\ forall i d, (i < n)%nat ->
       nth i chain d = fst (iterate (mcmc_update always proposal correction) i init).
Proof.
  intros St P always proposal correction n init Ha Hp Hc Hn Hi.
  assert (K : keeps_iter4 correction).
  { destruct Hc as [->|[(u & a & ->)|(c & ad & f & u & a & Had & ->)]].
    - exact uncorrected_keeps_iter.
    - exact (metropolis_keeps_iter u a).
    - exact (rm_keeps_iter c ad f _ Had (metropolis_keeps_iter u a)). }
  cbv zeta. rewrite (mcmc_run_spec _ n init (mcmc_update_iter _ _ _ Ha Hp K)), Hi.
  replace (S (n - 1 - 0)) with n by lia. split.
  - rewrite map_length, seq_length. reflexivity.
  - intros i d Hin. rewrite (nth_indep _ d (fst (iterate (mcmc_update always proposal correction) 0 init)))
      by (rewrite map_length, seq_length; exact Hin).
    rewrite (map_nth (fun i => fst (iterate (mcmc_update always proposal correction) i init)) (seq 0 n) 0%nat i).
    rewrite seq_nth by exact Hin. reflexivity.
Qed.
Print Assumptions C02_mcmc_run_length.

(** Continuing from an extra whose counter is [i] shortens the run. *)
Theorem C02_resumed_run_length :
  forall (St P : Type) (update : mstate St -> mextra P -> mstate St * mextra P) (n : nat) (init : mstate St * mextra P),
  (forall s e, iter (snd (update s e)) = S (iter e)) ->
  length (mcmc_run update n init) = S (n - 1 - iter (snd init)).
Proof.
  intros St P u n init H. rewrite (mcmc_run_spec u n init H), map_length, seq_length. reflexivity.
Qed.
Print Assumptions C02_resumed_run_length.

(** RandomWalk and RandomWalkABC meet the hypotheses. *)
Example C02_example : forall normal potential,
  (forall s e, iter (snd (rw_proposal normal potential s e)) = iter e)
  /\ (forall (Data : Type) prior lik dist s e,
        iter (snd (@abc_proposal Data normal prior lik dist s e)) = iter e)
  /\ (forall (Data : Type) (s : mstate (@abc_core Data)) e, iter (snd (abc_always s e)) = iter e).
Proof. repeat split. Qed.

(** C11 *)
Theorem C11_metropolis_correction :
  forall (St P : Type) (uniform : key -> R) (acc : mstate St -> mextra P -> mstate St -> mextra P -> xr)
         (rs : mstate St) (re : mextra P) (ps : mstate St) (pe : mextra P),
  (forall k, 0 <= uniform k < 1) ->
  let a := acc rs re ps pe in
  let s' := fst (metropolis_correct uniform acc rs re ps pe) in
  let e' := snd (metropolis_correct uniform acc rs re ps pe) in
  let moved := core s' = core ps /\ par e' = par pe /\ iter e' = iter pe in
  let stayed := core s' = core rs /\ par e' = par re /\ iter e' = iter re in
  (** nothing in between, and the draw decides *)
  (exists u, 0 <= u < 1 /\ u = uniform (KSplit (rkey pe) 2 1) /\
     ((xltb (Fin u) a = true /\ moved) \/ (xltb (Fin u) a = false /\ stayed)))
  /\ (a = NaN \/ a = Fin 0 -> stayed)
  /\ (a = Fin 1 \/ a = PInf -> moved)
  /\ alpha s' = (match a with NaN => Fin 0 | _ => a end)
  /\ rkey e' = KSplit (rkey pe) 2 0.
Proof.
  intros St P uniform acc rs re ps pe Hu. cbv zeta.
  destruct (metropolis_cases uniform acc rs re ps pe) as (H1 & H2 & H3 & H4 & H5).
  rewrite H1, H2, H3, H4, H5.
  assert (HN : acc rs re ps pe = NaN -> xltb (Fin (uniform (KSplit (rkey pe) 2 1))) (clean_alpha (acc rs re ps pe)) = false)
    by (intros; apply metropolis_never; auto).
  repeat apply conj.
  - exists (uniform (KSplit (rkey pe) 2 1)). split; [apply Hu|]. split; [reflexivity|].
    destruct (acc rs re ps pe) eqn:E.
    1-3: cbn [clean_alpha isnan];
      match goal with |- context [xltb ?a ?b] => destruct (xltb a b) end; auto.
    right. split; [reflexivity|]. rewrite (HN eq_refl). auto.
  - intros H. rewrite metropolis_never; auto. destruct H as [H|H]; auto.
    right; left. exists 0. split; [exact H|lra].
  - intros H. rewrite metropolis_always; auto. destruct H as [H|H]; auto.
    left. exists 1. split; [exact H|lra].
  - destruct (acc rs re ps pe); reflexivity.
  - reflexivity.
Qed.
Print Assumptions C11_metropolis_correction.

Example C11_example :
  alpha (fst (metropolis_correct (fun _ => / 2) (fun _ _ _ _ => NaN)
               (MState 1%nat (Fin 1)) (MExtra 3 (KRoot 0) tt) (MState 2%nat (Fin 1)) (MExtra 3 (KRoot 7) tt))) = Fin 0
  /\ core (fst (metropolis_correct (fun _ => / 2) (fun _ _ _ _ => NaN)
               (MState 1%nat (Fin 1)) (MExtra 3 (KRoot 0) tt) (MState 2%nat (Fin 1)) (MExtra 3 (KRoot 7) tt))) = 1%nat.
Proof.
  unfold metropolis_correct; cbn. unfold Rltb. destruct (Rlt_dec (/2) 0); [lra|]. split; reflexivity.
Qed.

(** C12: detailed balance of the Metropolis-Hastings acceptance. *)
Theorem C12_detailed_balance :
  forall (St : Type) (U : St -> R) (Q : St -> St -> R) (x y : St),
  exp (- U x) * exp (- Q x y) * mh_acceptance U Q x y
  = exp (- U y) * exp (- Q y x) * mh_acceptance U Q y x
  /\ 0 < mh_acceptance U Q x y <= 1.
Proof.
  intros St U Q x y. split; [exact (mh_balance U Q x y)|].
  unfold mh_acceptance. split.
  - apply Rmin_glb_lt; [lra|apply exp_pos].
  - apply Rmin_l.
Qed.
Print Assumptions C12_detailed_balance.

(** The acceptance RandomWalk uses (with NaN cleaned), for a symmetric
    proposal density and targets that may vanish (potential +inf). *)
Theorem C12_random_walk_balance :
  forall (rs ps : mstate rw_core) (re pe : mextra R),
  let u := rw_pot (core rs) in let v := rw_pot (core ps) in
  (finite u \/ u = PInf) -> (finite v \/ v = PInf) ->
  density u * xval (clean_alpha (rw_acceptance rs re ps pe))
  = density v * xval (clean_alpha (rw_acceptance ps pe rs re))
  /\ 0 <= xval (clean_alpha (rw_acceptance rs re ps pe)) <= 1.
Proof.
  intros rs ps re pe u v Hu Hv. split; [exact (rw_balance_x u v Hu Hv)|].
  destruct (clean_alpha_rw_unit (rw_pot (core rs)) (rw_pot (core ps))) as (a & Ha & Hr).
  unfold rw_acceptance. unfold rw_acc_x in Ha. rewrite Ha. exact Hr.
Qed.
Print Assumptions C12_random_walk_balance.

(** On any finite state space the resulting transition matrix has unit row
    sums and leaves the target invariant. *)
Theorem C12_invariance :
  forall (n : nat) (U : nat -> R) (Q : nat -> nat -> R),
  let q x y := exp (- Q x y) in
  let P := transition n q (mh_acceptance U Q) in
  (forall x, (x < n)%nat -> sum_upto n (P x) = 1)
  /\ forall y, (y < n)%nat -> sum_upto n (fun x => exp (- U x) * P x y) = exp (- U y).
Proof.
  intros n U Q q P. split.
  - exact (transition_rows n q (mh_acceptance U Q)).
  - exact (balance_invariant n (fun x => exp (- U x)) q (mh_acceptance U Q)
             (fun x y _ _ => mh_balance U Q x y)).
Qed.
Print Assumptions C12_invariance.

Example C12_example : mh_acceptance (fun b : bool => if b then 1 else 0) (fun _ _ => 0) false true = exp (-1).
Proof.
  unfold mh_acceptance. replace (- (1) + 0 - 0 + 0) with (-1) by lra.
  apply Rmin_right. rewrite <- exp_0. left. apply exp_increasing. lra.
Qed.

(** C13: from a start whose potential is not +inf or NaN, for every length. *)
Theorem C13_random_walk_support :
  forall (normal : key -> nat -> R) (potential : vec -> key -> xr) (uniform : key -> R)
         (v : vec) (k : key) (stepsize : R) (n : nat),
  (forall k, 0 <= uniform k < 1) ->
  (forall v k, potential v k <> NInf) ->
  let init := rw_startup potential v k stepsize in
  finite (rw_pot (core (fst init))) ->
  forall s, In s (mcmc_run (rw_update normal potential uniform) n init) ->
    finite (rw_pot (core s)) /\ exists k', rw_pot (core s) = potential (rw_value (core s)) k'.
Proof.
  intros normal potential uniform v k stepsize n Hu HN init Hf s Hin.
  rewrite (mcmc_run_spec _ n init (rw_update_iter normal potential uniform)) in Hin.
  apply in_map_iff in Hin. destruct Hin as (i & <- & _).
  assert (G : rw_good potential (fst init)).
  { destruct Hf as [r Hr]. split; [exists (KSplit k 2 1); reflexivity|]. rewrite Hr. split; discriminate. }
  destruct (rw_good_iterate normal potential uniform Hu i init G) as ((k' & Hk) & A & B).
  split; [|exists k'; exact Hk]. clear Hf.
  destruct (rw_pot (core (fst (iterate (rw_update normal potential uniform) i init)))) as [r| | |] eqn:E; try congruence.
  - exists r. reflexivity.
Qed.
Print Assumptions C13_random_walk_support.

(** A potential of -inf is not excluded by the code: such a proposal is always
    accepted, and no finite-potential proposal is accepted afterwards. *)
Theorem C13_minus_infinity_trap :
  forall (uniform : key -> R) (rs ps : mstate rw_core) (re pe : mextra R),
  (forall k, 0 <= uniform k < 1) ->
  (finite (rw_pot (core rs)) -> rw_pot (core ps) = NInf ->
     core (fst (metropolis_correct uniform rw_acceptance rs re ps pe)) = core ps)
  /\ (rw_pot (core rs) = NInf ->
     core (fst (metropolis_correct uniform rw_acceptance rs re ps pe)) = core rs).
Proof.
  intros uniform rs ps re pe Hu.
  destruct (metropolis_cases uniform rw_acceptance rs re ps pe) as (Hc & _). rewrite Hc.
  pose proof (Hu (KSplit (rkey pe) 2 1)) as Hk.
  unfold rw_acceptance. split.
  - intros [r Hr] Hp. rewrite Hr, Hp. cbn. unfold Rltb. destruct (Rlt_dec _ _); [reflexivity|lra].
  - intros Hr. rewrite Hr. destruct (rw_pot (core ps)); cbn; unfold Rleb;
      repeat match goal with |- context [Rle_dec ?a ?b] => destruct (Rle_dec a b); [lra|] end;
      cbn; unfold Rltb; destruct (Rlt_dec _ _); try reflexivity; lra.
Qed.
Print Assumptions C13_minus_infinity_trap.

Example C13_example :
  let potential := fun (v : vec) (_ : key) => if Rlt_dec (v 0%nat) 0 then PInf else Fin (v 0%nat) in
  finite (rw_pot (core (fst (rw_startup potential (fun _ => 1) (KRoot 0) 2))))
  /\ (forall v k, potential v k <> NInf).
Proof.
  cbn. split.
  - destruct (Rlt_dec 1 0); [lra|]. eexists; reflexivity.
  - intros v _. destruct (Rlt_dec _ _); discriminate.
Qed.

(** C17: RandomWalk adapted by RMMetropolis, for every run.  [e_ i] is the
    extra and [s_ i] the state after [i] updates. *)
Theorem C17_robbins_monro :
  forall normal potential uniform (log_update : bool) (scale neg_exponent target : R) (cut : option nat)
         (init : mstate rw_core * mextra R) (n : nat),
  0 < scale -> 0 < par (snd init) ->
  let upd := rw_rm_update normal potential uniform log_update scale neg_exponent target cut in
  let param i := par (snd (iterate upd i init)) in
  let metric i := alpha_R (fst (iterate upd i init)) in
  let adapting := match cut with None => True | Some c => (iter (snd init) + S n <= c)%nat end in
  (** the tuned parameter is recorded in the state *)
  rw_step (core (fst (iterate upd (S n) init))) = param (S n)
  (** positive for ever with log updates *)
  /\ (log_update = true -> 0 < param n)
  (** direction, when adapting: the stepsize goes up iff the acceptance
      probability is above its target *)
  /\ (adapting -> (log_update = true \/ 0 < param n) ->
       (param n < param (S n) <-> target < metric (S n))
       /\ (param (S n) < param n <-> metric (S n) < target)
       /\ (param (S n) = param n <-> metric (S n) = target))
  (** frozen after the cut-off *)
  /\ (~ adapting -> forall m, (n <= m)%nat -> param m = param n).
Proof.
  intros normal potential uniform logu scale nexp target cut init n Hs Hp upd param metric adapting.
  pose proof (rw_rm_step normal potential uniform logu scale nexp target cut) as ST.
  assert (IT : forall i, iter (snd (iterate upd i init)) = (iter (snd init) + i)%nat).
  { induction i; [cbn; lia|]. destruct (ST (fst (iterate upd i init)) (snd (iterate upd i init))) as (A & _).
    cbn [iterate]. fold upd in A. rewrite A, IHi. lia. }
  assert (POS : logu = true -> forall i, 0 < param i).
  { intros Hl. induction i; [exact Hp|]. unfold param in *.
    destruct (ST (fst (iterate upd i init)) (snd (iterate upd i init))) as (_ & _ & C).
    cbn [iterate]. fold upd in C. rewrite C. destruct (before_cut _ _); [|exact IHi].
    rewrite Hl. apply rm_adapt_pos. }
  assert (STEP : forall i, param (S i) = if before_cut cut (iter (snd init) + S i)
       then rm_adapt_param logu false scale nexp target (iter (snd init) + S i) (metric (S i)) (param i) else param i).
  { intros i. destruct (ST (fst (iterate upd i init)) (snd (iterate upd i init))) as (_ & _ & C).
    unfold param at 1. cbn [iterate]. fold upd in C. rewrite C, IT.
    replace (S (iter (snd init) + i)) with (iter (snd init) + S i)%nat by lia. reflexivity. }
  repeat apply conj.
  - destruct (ST (fst (iterate upd n init)) (snd (iterate upd n init))) as (_ & B & _). exact B.
  - intros Hl. apply POS; exact Hl.
  - intros Ha Hpos.
    assert (B : before_cut cut (iter (snd init) + S n) = true).
    { unfold before_cut. unfold adapting in Ha. destruct cut; auto. apply Nat.leb_le. exact Ha. }
    rewrite STEP, B.
    apply (rm_adapt_dir logu false); [exact Hs|lia|intros Hl; apply POS; exact Hl].
  - intros Ha m Hm. induction Hm; [reflexivity|]. rewrite STEP.
    assert (B : before_cut cut (iter (snd init) + S m) = false).
    { unfold before_cut. unfold adapting in Ha. destruct cut; [|tauto]. apply Nat.leb_gt. lia. }
    rewrite B. exact IHHm.
Qed.
Print Assumptions C17_robbins_monro.

(** The update rule itself, either monotonicity. *)
Theorem C17_update_direction :
  forall (log_update increasing : bool) (scale neg_exponent target metric param : R) (it : nat),
  0 < scale -> (1 <= it)%nat -> (log_update = true -> 0 < param) ->
  let new := rm_adapt_param log_update increasing scale neg_exponent target it metric param in
  (param < new <-> if increasing then metric < target else target < metric)
  /\ (new < param <-> if increasing then target < metric else metric < target)
  /\ (new = param <-> metric = target)
  /\ (log_update = true -> 0 < new).
Proof.
  intros logu inc scale nexp target metric param it Hs Hi Hp new.
  destruct (rm_adapt_dir logu inc scale nexp target it metric param Hs Hi Hp) as (A & B & C).
  split; [exact A|]. split; [exact B|]. split; [exact C|].
  intros Hl. unfold new. rewrite Hl. apply rm_adapt_pos.
Qed.
Print Assumptions C17_update_direction.

Example C17_example :
  rm_adapt_param false true 1 0 (1/10) 1 (3/10) 5 = 5 - 2/10.
Proof.
  unfold rm_adapt_param, robbins_monro_update, rm_stepsize, monotonicity_sign.
  rewrite Ropp_0. rewrite Rpower_O by (cbn; lra). lra.
Qed.

(** C27 *)
Theorem C27_abc_mcmc_stays :
  forall (Data : Type) (normal : key -> nat -> R) (prior : vec -> key -> xr)
         (lik : vec -> key -> Data) (dist : Data -> xr) (uniform : key -> R)
         (init : mstate abc_core * mextra abc_par) (i j : nat),
  (forall k, 0 <= uniform k < 1) -> (forall v k, prior v k <> NInf) ->
  let upd := abc_update normal prior lik dist uniform in
  let s_ m := core (fst (iterate upd m init)) in
  let thr := threshold (par (snd init)) in
  (** the start belongs to the scenario *)
  (exists k1 k2, a_prior (s_ 0%nat) = prior (a_value (s_ 0%nat)) k1
     /\ a_data (s_ 0%nat) = lik (a_value (s_ 0%nat)) k2 /\ a_dist (s_ 0%nat) = dist (a_data (s_ 0%nat))) ->
  (** once inside, at iteration [i] ... *)
  xltb (a_dist (s_ i)) thr = true -> finite (a_prior (s_ i)) ->
  (i <= j)%nat ->
  xltb (a_dist (s_ j)) thr = true /\ finite (a_prior (s_ j))
  /\ exists k1 k2, a_prior (s_ j) = prior (a_value (s_ j)) k1
       /\ a_data (s_ j) = lik (a_value (s_ j)) k2 /\ a_dist (s_ j) = dist (a_data (s_ j)).
Proof.
  intros Data normal prior lik dist uniform init i j Hu HN upd s_ thr (k1 & k2 & I1 & I2 & I3) Hd Hf Hij.
  assert (C : forall m, abc_coherent prior lik dist (fst (iterate upd m init))).
  { induction m; [split; [|split]; [exists k1|exists k2|]; assumption|].
    exact (abc_coherent_step normal prior lik dist uniform _ (snd (iterate upd m init)) IHm). }
  assert (T : forall m, par (snd (iterate upd m init)) = par (snd init)).
  { induction m; [reflexivity|]. cbn [iterate].
    rewrite <- IHm. exact (proj1 (abc_update_cases normal prior lik dist uniform _ _)). }
  assert (G : abc_inside thr (fst (iterate upd j init))).
  { induction Hij.
    - split; [exact Hd|]. destruct Hf as [r Hr]. fold (s_ i). rewrite Hr. split; discriminate.
    - assert (IH := IHHij). unfold thr in IH. rewrite <- (T m) in IH.
      pose proof (abc_step normal prior lik dist uniform Hu (fst (iterate upd m init)) (snd (iterate upd m init)) (C m) IH) as (_ & B & _).
      rewrite (T m) in B. exact B. }
  destruct G as (G1 & G2 & G3). destruct (C j) as ((k1' & P1) & (k2' & P2) & P3).
  split; [exact G1|]. split; [|exists k1', k2'; auto].
  unfold s_ in *. destruct (a_prior (core (fst (iterate upd j init)))) as [r| | |] eqn:E; try congruence.
  - exists r; reflexivity.
Qed.
Print Assumptions C27_abc_mcmc_stays.

Example C27_example :
  xltb (a_dist (@ABC nat (fun _ => 0) (Fin 1) 3%nat (Fin 2))) (Fin 5) = true /\ finite (Fin 1).
Proof. split; [|eexists; reflexivity]. cbn. apply Rltb_true. lra. Qed.

(** C31: with the startup values, for every run. *)
Theorem C31_diagonal_adaptation :
  forall (Data : Type) (normal : key -> nat -> R) (prior : vec -> key -> xr)
         (lik : vec -> key -> Data) (dist : Data -> xr) (uniform : key -> R)
         (d : nat) (logu inc : bool) (scale nexp target : R) (cut : option nat)
         (s0 : mstate abc_core) (k : key) (thr : xr) (step0 : R) (n : nat),
  0 <= scale -> 0 < step0 -> (1 <= d)%nat ->
  let upd := abc_diag_update normal prior lik dist uniform d logu inc scale nexp target cut in
  let init := (s0, MExtra 0 k (diag_startup_par d thr step0 (a_value (core s0)))) in
  let p_ i := par (snd (iterate upd i init)) in
  let v_ i := a_value (core (fst (iterate upd i init))) in
  (forall c, 0 < diag_post_cov (p_ n) c /\ 0 < stepsize (p_ n) c)
  /\ in_hull (map v_ (seq 0 (S n))) (post_mean (p_ n)).
Proof.
  intros Data normal prior lik dist uniform d logu inc scale nexp target cut s0 k thr step0 n Hs H0 Hd upd init p_ v_.
  assert (HdR : 0 < INR d) by (apply lt_0_INR; lia).
  assert (H238 : 0 < 2.38 ^ 2) by (apply pow_lt; lra).
  assert (P0 : forall c, 0 < diag_post_cov (par (snd init)) c).
  { intros c. cbn. apply Rdiv_lt_0_compat; [nra|exact H238]. }
  assert (H00 : in_hull [a_value (core (fst init))] (post_mean (par (snd init)))).
  { exists [1]. cbn. repeat split; [repeat constructor; lra|lra|]. intros i; lra. }
  destruct (diag_iterate normal prior lik dist uniform d logu inc scale nexp target cut Hs n init P0 H00) as (A & B).
  split; [|exact B]. intros c. split; [apply A|].
  assert (ST : forall m, stepsize (p_ m) c = diag_post_cov (p_ m) c / INR d * 2.38 ^ 2).
  { induction m.
    - unfold p_. cbn [iterate init snd par diag_startup_par stepsize diag_post_cov]. field. split; lra.
    - destruct (diag_step normal prior lik dist uniform d logu inc scale nexp target cut
                  (fst (iterate upd m init)) (snd (iterate upd m init))) as (_ & [(E1 & _ & E3)|(_ & _ & E3)]);
        unfold p_; cbn [iterate]; fold upd in E3.
      + fold upd in E1. rewrite E1, E3. exact IHm.
      + rewrite E3. reflexivity. }
  rewrite ST. apply Rmult_lt_0_compat; [|exact H238]. apply Rdiv_lt_0_compat; [apply A|exact HdR].
Qed.
Print Assumptions C31_diagonal_adaptation.

Example C31_example : diag_rm 1 0 1 = 1 - / 1000.
Proof.
  unfold diag_rm, rm_stepsize. rewrite Ropp_0, Rpower_O by (cbn; lra). apply Rmin_right. lra.
Qed.

(** C32 for RandomWalk with Metropolis: there is a list of keys, pairwise
    unrelated, outside which the chain of [n] updates reads no randomness. *)
Theorem C32_random_walk_keys :
  forall (n : nat) (k : key), exists draws : list key,
  length draws = (3 * n)%nat /\ antichain draws
  /\ forall normal normal' potential potential' uniform uniform' (s : mstate rw_core) (it : nat) (st : R),
     (forall k', In k' draws -> normal k' = normal' k' /\ (forall v, potential v k' = potential' v k')
                                /\ uniform k' = uniform' k') ->
     iterate (rw_update normal potential uniform) n (s, MExtra it k st)
     = iterate (rw_update normal' potential' uniform') n (s, MExtra it k st).
Proof.
  intros n k. exists (run_draws rw_draws rw_next_key n k). split; [|split].
  - revert k. induction n; intros k; [reflexivity|].
    change (run_draws rw_draws rw_next_key (S n) k)
      with (rw_draws k ++ run_draws rw_draws rw_next_key n (rw_next_key k)).
    rewrite app_length, IHn. change (length (rw_draws k)) with 3%nat. lia.
  - apply pairwise_antichain, rw_draws_ok.
  - intros normal normal' potential potential' uniform uniform' s it st H.
    exact (run_local _ _ rw_draws rw_next_key _ (rw_update_next_key normal potential uniform)
             (rw_update_local normal normal' potential potential' uniform uniform')
             n (s, MExtra it k st) H n (le_n n)).
Qed.
Print Assumptions C32_random_walk_keys.

Theorem C32_abc_keys :
  forall (n : nat) (k : key), exists draws : list key,
  length draws = (4 * n)%nat /\ antichain draws
  /\ forall (Data : Type) normal normal' prior prior' (lik lik' : vec -> key -> Data) dist uniform uniform'
       (s : mstate abc_core) (it : nat) (p : abc_par),
     (forall k', In k' draws -> normal k' = normal' k' /\ (forall v, prior v k' = prior' v k')
        /\ (forall v, lik v k' = lik' v k') /\ uniform k' = uniform' k') ->
     iterate (abc_update normal prior lik dist uniform) n (s, MExtra it k p)
     = iterate (abc_update normal' prior' lik' dist uniform') n (s, MExtra it k p).
Proof.
  intros n k. exists (run_draws abc_draws abc_next_key n k). split; [|split].
  - revert k. induction n; intros k; [reflexivity|].
    change (run_draws abc_draws abc_next_key (S n) k)
      with (abc_draws k ++ run_draws abc_draws abc_next_key n (abc_next_key k)).
    rewrite app_length, IHn. change (length (abc_draws k)) with 4%nat. lia.
  - apply pairwise_antichain, abc_draws_ok.
  - intros Data normal normal' prior prior' lik lik' dist uniform uniform' s it p H.
    exact (run_local _ _ abc_draws abc_next_key _ (abc_update_next_key normal prior lik dist uniform)
             (abc_update_local normal normal' prior prior' lik lik' dist uniform uniform')
             n (s, MExtra it k p) H n (le_n n)).
Qed.
Print Assumptions C32_abc_keys.

Example C32_example : run_draws rw_draws rw_next_key 1 (KRoot 0)
  = [KSplit (KRoot 0) 3 1; KSplit (KRoot 0) 3 2; KSplit (KSplit (KRoot 0) 3 0) 2 1].
Proof. reflexivity. Qed.
