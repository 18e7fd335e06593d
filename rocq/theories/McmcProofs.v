(** Lemmas for the MCMC group. *)
From Coq Require Import Reals List Arith Bool Lia Lra.
From Verif Require Import XR Keys LoopModel LoopSpec LoopProofs McmcModel McmcSpec.
Import ListNotations.
Open Scope R_scope.

(** * Generic Metropolis correction *)
Section Generic.
  Context {St P : Type}.
  Variable uniform : key -> R.
  Hypothesis uniform_range : forall k, 0 <= uniform k < 1.
  Variable acc : mstate St -> mextra P -> mstate St -> mextra P -> xr.

  Lemma metropolis_cases rs re ps pe :
    let a := acc rs re ps pe in
    let u := uniform (KSplit (rkey pe) 2 1) in
    let r := metropolis_correct uniform acc rs re ps pe in
    let acc' := xltb (Fin u) (clean_alpha a) in
    core (fst r) = (if acc' then core ps else core rs)
    /\ par (snd r) = (if acc' then par pe else par re)
    /\ iter (snd r) = (if acc' then iter pe else iter re)
    /\ alpha (fst r) = clean_alpha a
    /\ rkey (snd r) = KSplit (rkey pe) 2 0.
  Proof.
    cbv zeta. unfold metropolis_correct.
    destruct (xltb _ _); cbn; auto.
  Qed.

  Lemma metropolis_never rs re ps pe :
    acc rs re ps pe = NaN \/ (exists r, acc rs re ps pe = Fin r /\ r <= 0) \/ acc rs re ps pe = NInf ->
    xltb (Fin (uniform (KSplit (rkey pe) 2 1))) (clean_alpha (acc rs re ps pe)) = false.
  Proof.
    intros [H|[(r & H & Hr)|H]]; rewrite H; cbn; auto;
      apply Rltb_false; pose proof (uniform_range (KSplit (rkey pe) 2 1)); lra.
  Qed.

  Lemma metropolis_always rs re ps pe :
    (exists r, acc rs re ps pe = Fin r /\ 1 <= r) \/ acc rs re ps pe = PInf ->
    xltb (Fin (uniform (KSplit (rkey pe) 2 1))) (clean_alpha (acc rs re ps pe)) = true.
  Proof.
    intros [(r & H & Hr)|H]; rewrite H; cbn; auto.
    apply Rltb_true; pose proof (uniform_range (KSplit (rkey pe) 2 1)); lra.
  Qed.
End Generic.

(** * Iteration counter *)
Section Counter.
  Context {St P : Type}.
  Notation state := (mstate St).
  Notation extra := (mextra P).

  Definition keeps_iter2 (f : state -> extra -> state * extra) : Prop :=
    forall s e, iter (snd (f s e)) = iter e.
  Definition keeps_iter4 (f : state -> extra -> state -> extra -> state * extra) : Prop :=
    forall rs re ps pe, iter re = iter pe -> iter (snd (f rs re ps pe)) = iter re.

  Lemma mcmc_update_iter always proposal correction :
    keeps_iter2 always -> keeps_iter2 proposal -> keeps_iter4 correction ->
    forall s e, iter (snd (@mcmc_update St P always proposal correction s e)) = S (iter e).
  Proof.
    intros Ha Hp Hc s e. unfold mcmc_update.
    pose proof (Ha s (MExtra (S (iter e)) (rkey e) (par e))) as A.
    destruct (always s _) as [rs re]. cbn in A.
    pose proof (Hp rs re) as B. destruct (proposal rs re) as [ps pe]. cbn in B.
    rewrite Hc by congruence. exact A.
  Qed.

  Lemma metropolis_keeps_iter uniform acc : keeps_iter4 (metropolis_correct uniform acc).
  Proof.
    intros rs re ps pe H. destruct (metropolis_cases uniform acc rs re ps pe) as (_ & _ & Hi & _).
    rewrite Hi. destruct (xltb _ _); auto.
  Qed.

  Lemma uncorrected_keeps_iter : keeps_iter4 (@uncorrected St P).
  Proof. intros rs re ps pe H. exact (eq_sym H). Qed.

  Lemma rm_keeps_iter cut adapt finish super :
    keeps_iter2 adapt -> keeps_iter4 super -> keeps_iter4 (rm_correct cut adapt finish super).
  Proof.
    intros Ha Hs rs re ps pe H. unfold rm_correct.
    pose proof (Hs rs re ps pe H) as B. destruct (super rs re ps pe) as [cs ce]. cbn in B.
    destruct (match cut with None => true | Some c => (iter ce <=? c)%nat end); cbn; auto.
    pose proof (Ha cs ce) as A. destruct (adapt cs ce). cbn in *. congruence.
  Qed.

  Lemma mcmc_run_spec update n (init : state * extra) :
    (forall s e, iter (snd (update s e)) = S (iter e)) ->
    mcmc_run update n init
    = map (fun i => fst (iterate update i init)) (seq 0 (S (n - 1 - iter (snd init)))).
  Proof. intros H. unfold mcmc_run. exact (run_counter iter update H init (n - 1)). Qed.
End Counter.

(** * Detailed balance *)
Lemma exp_min_balance a b : exp (- a) * Rmin 1 (exp (- b + a)) = exp (- b) * Rmin 1 (exp (- a + b)).
Proof.
  assert (H : forall x y, exp (- x) * Rmin 1 (exp (- y + x)) = Rmin (exp (- x)) (exp (- y))).
  { intros x y. unfold Rmin.
    replace (exp (-y)) with (exp (-x) * exp (- y + x)) by (rewrite <- exp_plus; f_equal; lra).
    pose proof (exp_pos (-x)).
    destruct (Rle_dec 1 (exp (-y+x))); destruct (Rle_dec (exp (-x)) (exp (-x) * exp (-y+x))); try lra; exfalso; nra. }
  rewrite !H. apply Rmin_comm.
Qed.

Lemma mh_balance {St} (U : St -> R) (Q : St -> St -> R) x y :
  exp (- U x) * exp (- Q x y) * mh_acceptance U Q x y
  = exp (- U y) * exp (- Q y x) * mh_acceptance U Q y x.
Proof.
  unfold mh_acceptance. rewrite <- !exp_plus.
  replace (- U x + - Q x y) with (- (U x + Q x y)) by lra.
  replace (- U y + - Q y x) with (- (U y + Q y x)) by lra.
  replace (- U y + U x - Q y x + Q x y) with (- (U y + Q y x) + (U x + Q x y)) by lra.
  replace (- U x + U y - Q x y + Q y x) with (- (U x + Q x y) + (U y + Q y x)) by lra.
  apply exp_min_balance.
Qed.

Lemma sum_upto_ext n f g : (forall i, (i < n)%nat -> f i = g i) -> sum_upto n f = sum_upto n g.
Proof. induction n; cbn; intros H; auto. rewrite IHn, (H n) by auto; auto. Qed.
Lemma sum_upto_scal n c f : sum_upto n (fun i => c * f i) = c * sum_upto n f.
Proof. induction n; cbn; [lra|]. rewrite IHn. lra. Qed.
Lemma sum_upto_plus n f g : sum_upto n (fun i => f i + g i) = sum_upto n f + sum_upto n g.
Proof. induction n; cbn; [lra|]. rewrite IHn. lra. Qed.
Lemma sum_upto_single n y f : (y < n)%nat ->
  sum_upto n f = f y + sum_upto n (fun z => if Nat.eq_dec z y then 0 else f z).
Proof.
  induction n; intros H; [lia|]. cbn.
  destruct (Nat.eq_dec n y).
  - subst. assert (E : sum_upto y f = sum_upto y (fun z => if Nat.eq_dec z y then 0 else f z)).
    { apply sum_upto_ext. intros i Hi. destruct (Nat.eq_dec i y); [lia|auto]. }
    rewrite <- E. lra.
  - rewrite IHn by lia. lra.
Qed.

Lemma balance_invariant n (w : nat -> R) q acc :
  (forall x y, (x < n)%nat -> (y < n)%nat -> w x * q x y * acc x y = w y * q y x * acc y x) ->
  forall y, (y < n)%nat -> sum_upto n (fun x => w x * transition n q acc x y) = w y.
Proof.
  intros H y Hy. rewrite (sum_upto_single n y _ Hy).
  unfold transition at 1. destruct (Nat.eq_dec y y); [|congruence].
  rewrite (sum_upto_ext n (fun z => if Nat.eq_dec z y then 0 else w z * transition n q acc z y)
             (fun z => w y * (if Nat.eq_dec y z then 0 else q y z * acc y z))).
  - rewrite sum_upto_scal. lra.
  - intros z Hz. unfold transition. destruct (Nat.eq_dec z y), (Nat.eq_dec y z); try congruence; try lra.
    specialize (H z y Hz Hy). lra.
Qed.

Lemma transition_rows n q acc x : (x < n)%nat -> sum_upto n (transition n q acc x) = 1.
Proof.
  intros Hx. rewrite (sum_upto_single n x _ Hx).
  unfold transition at 1. destruct (Nat.eq_dec x x); [|congruence].
  rewrite (sum_upto_ext n (fun z => if Nat.eq_dec z x then 0 else transition n q acc x z)
             (fun z => if Nat.eq_dec x z then 0 else q x z * acc x z)); [lra|].
  intros z Hz. unfold transition. destruct (Nat.eq_dec z x), (Nat.eq_dec x z); congruence || lra.
Qed.

(** [xr] version for RandomWalk *)
Definition rw_acc_x (u v : xr) : xr := xmin (Fin 1) (xexp (xadd (xopp v) u)).

Lemma rw_acc_x_fin a b : rw_acc_x (Fin a) (Fin b) = Fin (Rmin 1 (exp (- b + a))).
Proof.
  unfold rw_acc_x, xadd, xopp, xexp, xmin, xleb, Rleb, Rmin.
  destruct (Rle_dec 1 (exp (- b + a))); reflexivity.
Qed.

Lemma rw_balance_x u v : (finite u \/ u = PInf) -> (finite v \/ v = PInf) ->
  density u * xval (clean_alpha (rw_acc_x u v)) = density v * xval (clean_alpha (rw_acc_x v u)).
Proof.
  intros [[a ->]| ->] [[b ->]| ->].
  - rewrite !rw_acc_x_fin. cbn. apply exp_min_balance.
  - unfold rw_acc_x; cbn. unfold Rleb. destruct (Rle_dec 1 0); [lra|]. cbn. lra.
  - unfold rw_acc_x; cbn. unfold Rleb. destruct (Rle_dec 1 0); [lra|]. cbn. lra.
  - cbn. lra.
Qed.

(** * RandomWalk invariant *)
Lemma clean_alpha_rw_unit u v :
  exists a, clean_alpha (rw_acc_x u v) = Fin a /\ 0 <= a <= 1.
Proof.
  unfold rw_acc_x.
  assert (H : forall w, exists a, clean_alpha (xmin (Fin 1) (xexp w)) = Fin a /\ 0 <= a <= 1).
  { intros [r| | |]; cbn.
    - unfold Rleb. destruct (Rle_dec 1 (exp r)); cbn.
      + exists 1; split; auto; lra.
      + exists (exp r). pose proof (exp_pos r). split; auto; lra.
    - exists 1; split; auto; lra.
    - unfold Rleb. destruct (Rle_dec 1 0); [lra|]. exists 0; split; auto; lra.
    - exists 0; split; auto; lra. }
  apply H.
Qed.

Section RW.
  Variable normal : key -> nat -> R.
  Variable potential : vec -> key -> xr.
  Variable uniform : key -> R.
  Hypothesis uniform_range : forall k, 0 <= uniform k < 1.

  (** recorded potential is the scenario's, and not +inf or NaN *)
  Definition rw_good (s : mstate rw_core) : Prop :=
    (exists k, rw_pot (core s) = potential (rw_value (core s)) k)
    /\ rw_pot (core s) <> PInf /\ rw_pot (core s) <> NaN.

  Lemma rw_acc_cases rs re ps pe :
    xltb (Fin (uniform (KSplit (rkey pe) 2 1))) (clean_alpha (@rw_acceptance rs re ps pe)) = true ->
    rw_pot (core rs) <> PInf -> rw_pot (core ps) <> PInf /\ rw_pot (core ps) <> NaN.
  Proof.
    unfold rw_acceptance. pose proof (uniform_range (KSplit (rkey pe) 2 1)) as Hu.
    destruct (rw_pot (core ps)) as [r| | |]; intros H Hr; split; try congruence; exfalso.
    - destruct (rw_pot (core rs)) as [q| | |]; cbn in H; try congruence.
      + unfold Rleb in H. destruct (Rle_dec 1 0); [lra|]. cbn in H. apply Rltb_true in H. lra.
      + unfold Rleb in H. destruct (Rle_dec 1 0); [lra|]. cbn in H. apply Rltb_true in H. lra.
      + apply Rltb_true in H. lra.
    - cbn in H. apply Rltb_true in H. lra.
  Qed.

  Lemma rw_good_step s e : rw_good s -> rw_good (fst (rw_update normal potential uniform s e)).
  Proof.
    intros (Hk & Hp & Hn). unfold rw_update, mcmc_update.
    set (e1 := MExtra (S (iter e)) (rkey e) (par e)).
    destruct (rw_proposal normal potential s e1) as [ps pe] eqn:E.
    pose proof (metropolis_cases uniform rw_acceptance s e1 ps pe) as (Hc & _).
    unfold rw_good. rewrite Hc.
    destruct (xltb _ _) eqn:Ha; [|auto].
    destruct (rw_acc_cases _ _ _ _ Ha Hp) as [A B].
    split; [|auto]. unfold rw_proposal in E. injection E as <- <-. cbn. eauto.
  Qed.

  Lemma rw_good_iterate n c : rw_good (fst c) -> rw_good (fst (iterate (rw_update normal potential uniform) n c)).
  Proof. intros H. induction n; cbn; auto. apply rw_good_step. exact IHn. Qed.

  Lemma rw_update_iter s e : iter (snd (rw_update normal potential uniform s e)) = S (iter e).
  Proof.
    apply mcmc_update_iter.
    - intros ? ?; reflexivity.
    - intros ? ?; reflexivity.
    - apply metropolis_keeps_iter.
  Qed.
End RW.

(** * RandomWalkABC invariant *)
Section ABCinv.
  Context {Data : Type}.
  Variable normal : key -> nat -> R.
  Variable prior_potential : vec -> key -> xr.
  Variable likelihood_sample : vec -> key -> Data.
  Variable distance : Data -> xr.
  Variable uniform : key -> R.
  Hypothesis uniform_range : forall k, 0 <= uniform k < 1.
  Notation upd := (abc_update normal prior_potential likelihood_sample distance uniform).

  Definition abc_coherent (s : mstate (@abc_core Data)) : Prop :=
    (exists k, a_prior (core s) = prior_potential (a_value (core s)) k)
    /\ (exists k, a_data (core s) = likelihood_sample (a_value (core s)) k)
    /\ a_dist (core s) = distance (a_data (core s)).

  Definition abc_inside (t : xr) (s : mstate (@abc_core Data)) : Prop :=
    xltb (a_dist (core s)) t = true /\ a_prior (core s) <> PInf /\ a_prior (core s) <> NaN.

  Lemma abc_acc_cases rs re ps pe :
    xltb (Fin (uniform (KSplit (rkey pe) 2 1))) (clean_alpha (@abc_acceptance Data rs re ps pe)) = true ->
    a_prior (core rs) <> PInf -> abc_inside (threshold (par re)) ps.
  Proof.
    unfold abc_acceptance, abc_inside. pose proof (uniform_range (KSplit (rkey pe) 2 1)) as Hu.
    intros H Hr.
    destruct (xltb (a_dist (core ps)) (threshold (par re))) eqn:D.
    - split; auto. cbn [xbool] in H.
      destruct (a_prior (core ps)) as [r| | |]; split; try congruence; exfalso.
      + destruct (a_prior (core rs)) as [q| | |]; cbn in H; try congruence; unfold Rleb in H;
          repeat match type of H with context [Rle_dec ?a ?b] => destruct (Rle_dec a b) end;
          cbn in H; apply Rltb_true in H; lra.
      + destruct (a_prior (core rs)) as [q| | |]; cbn in H; apply Rltb_true in H; lra.
    - exfalso. cbn [xbool] in H.
      destruct (xexp _) as [r| | |] eqn:E; cbn in H.
      + unfold Rleb in H. destruct (Rle_dec 1 (r * 0)); [lra|]. cbn in H. apply Rltb_true in H. lra.
      + destruct (Rlt_dec 0 0); [lra|]. cbn in H. apply Rltb_true in H. lra.
      + destruct (Rlt_dec 0 0); [lra|]. cbn in H. apply Rltb_true in H. lra.
      + apply Rltb_true in H. lra.
  Qed.

  Lemma abc_update_cases s e :
    let pe := abc_always s (MExtra (S (iter e)) (rkey e) (par e)) in
    let pr := abc_proposal normal prior_potential likelihood_sample distance (fst pe) (snd pe) in
    let r := upd s e in
    par (snd r) = par e
    /\ (core (fst r) = core s
        \/ core (fst r) = core (fst pr)
           /\ xltb (Fin (uniform (KSplit (rkey (snd pr)) 2 1)))
                   (clean_alpha (abc_acceptance s (snd pe) (fst pr) (snd pr))) = true).
  Proof.
    cbv zeta. unfold abc_update, mcmc_update, abc_always. cbn [iter rkey par fst snd].
    set (re := MExtra (S (iter e)) _ (par e)).
    destruct (abc_proposal normal prior_potential likelihood_sample distance s re) as [ps pe] eqn:E.
    pose proof (metropolis_cases uniform abc_acceptance s re ps pe) as (Hc & Hp & _).
    rewrite Hc, Hp.
    assert (par pe = par e) by (unfold abc_proposal in E; injection E as <- <-; reflexivity).
    destruct (xltb _ _) eqn:Ha; split; cbn; auto.
  Qed.

  Lemma abc_step s e : abc_coherent s -> abc_inside (threshold (par e)) s ->
    abc_coherent (fst (upd s e)) /\ abc_inside (threshold (par e)) (fst (upd s e)) /\ par (snd (upd s e)) = par e.
  Proof.
    intros Hc Hi. destruct (abc_update_cases s e) as (Hp & [H|[H Ha]]).
    - unfold abc_coherent, abc_inside. rewrite H. auto.
    - apply abc_acc_cases in Ha; [|apply Hi]. unfold abc_coherent, abc_inside. rewrite H.
      split; [|split; [exact Ha|auto]]. cbn. repeat split; eauto.
  Qed.

  Lemma abc_iterate n c : abc_coherent (fst c) -> abc_inside (threshold (par (snd c))) (fst c) ->
    abc_coherent (fst (iterate upd n c)) /\ abc_inside (threshold (par (snd c))) (fst (iterate upd n c))
    /\ par (snd (iterate upd n c)) = par (snd c).
  Proof.
    intros H1 H2. induction n; [split; [|split]; auto|]. destruct IHn as (A & B & C).
    cbn [iterate]. destruct (abc_step (fst (iterate upd n c)) (snd (iterate upd n c)) A) as (D & E & F).
    - rewrite C. exact B.
    - rewrite C in *. auto.
  Qed.

  Lemma abc_coherent_step s e : abc_coherent s -> abc_coherent (fst (upd s e)).
  Proof.
    intros Hc. destruct (abc_update_cases s e) as (Hp & [H|[H Ha]]); unfold abc_coherent; rewrite H; auto.
    cbn. repeat split; eauto.
  Qed.
End ABCinv.

(** * Robbins-Monro *)
Lemma rm_stepsize_pos scale e it : 0 < scale -> (0 < it)%nat -> 0 < rm_stepsize scale e it.
Proof.
  intros H _. unfold rm_stepsize. apply Rmult_lt_0_compat; auto.
  unfold Rpower. apply exp_pos.
Qed.

Lemma rm_adapt_pos inc scale e target it metric param :
  0 < rm_adapt_param true inc scale e target it metric param.
Proof. apply exp_pos. Qed.

(** the direction of movement *)
Lemma rm_adapt_dir logu (inc : bool) scale e target it metric param :
  0 < scale -> (0 < it)%nat -> (logu = true -> 0 < param) ->
  (param < rm_adapt_param logu inc scale e target it metric param
     <-> if inc then metric < target else target < metric)
  /\ (rm_adapt_param logu inc scale e target it metric param < param
     <-> if inc then target < metric else metric < target)
  /\ (rm_adapt_param logu inc scale e target it metric param = param <-> metric = target).
Proof.
  intros Hs Hit Hp. pose proof (rm_stepsize_pos scale e it Hs Hit) as Hr.
  set (r := rm_stepsize scale e it) in *.
  set (delta := r * (metric - target) * monotonicity_sign inc).
  assert (Hd : (delta < 0 <-> if inc then metric < target else target < metric)
             /\ (0 < delta <-> if inc then target < metric else metric < target)
             /\ (delta = 0 <-> metric = target)).
  { unfold delta, monotonicity_sign. destruct inc; repeat split; intros; try nra.
    all: destruct (Req_dec (metric-target) 0); [lra|];
      assert (r * (metric - target) <> 0) by (apply Rmult_integral_contrapositive; split; lra); lra. }
  destruct Hd as (D1 & D2 & D3). rewrite <- D1, <- D2, <- D3.
  unfold rm_adapt_param. destruct logu.
  - specialize (Hp eq_refl). unfold log_robbins_monro_update, robbins_monro_update. fold r. fold delta.
    rewrite <- (exp_ln param Hp) at 1 4 6. 
    repeat split; intros H.
    + apply exp_lt_inv in H. lra.
    + apply exp_increasing. lra.
    + apply exp_lt_inv in H. lra.
    + apply exp_increasing. lra.
    + apply exp_inv in H. lra.
    + f_equal. lra.
  - unfold robbins_monro_update. fold r. fold delta. repeat split; intros; lra.
Qed.

Section RWRM.
  Variable normal : key -> nat -> R.
  Variable potential : vec -> key -> xr.
  Variable uniform : key -> R.
  Variables (logu : bool) (scale nexp target : R) (cut : option nat).
  Notation upd := (rw_rm_update normal potential uniform logu scale nexp target cut).

  Definition before_cut (it : nat) : bool := match cut with None => true | Some c => (it <=? c)%nat end.

  Lemma rw_rm_step s e :
    iter (snd (upd s e)) = S (iter e)
    /\ rw_step (core (fst (upd s e))) = par (snd (upd s e))
    /\ par (snd (upd s e))
       = if before_cut (S (iter e))
         then rm_adapt_param logu false scale nexp target (S (iter e)) (alpha_R (fst (upd s e))) (par e)
         else par e.
  Proof.
    unfold rw_rm_update, mcmc_update, rm_correct.
    set (e1 := MExtra (S (iter e)) (rkey e) (par e)).
    destruct (rw_proposal normal potential s e1) as [ps pe] eqn:E.
    pose proof (metropolis_cases uniform rw_acceptance s e1 ps pe) as (_ & Hp & Hi & Hal & _).
    assert (Q : par pe = par e /\ iter pe = S (iter e)).
    { unfold rw_proposal in E. injection E as <- <-. cbn. auto. }
    destruct Q as [Q1 Q2].
    set (ce := metropolis_correct uniform rw_acceptance s e1 ps pe) in *.
    assert (I : iter (snd ce) = S (iter e)) by (rewrite Hi; destruct (xltb _ _); auto).
    assert (J : par (snd ce) = par e) by (rewrite Hp; destruct (xltb _ _); auto).
    clearbody ce. destruct ce as [cs ce]. cbn in I, J.
    unfold before_cut. rewrite I.
    destruct (match cut with None => true | Some c => (S (iter e) <=? c)%nat end); cbn; rewrite ?I, ?J; auto.
  Qed.
End RWRM.

(** * Diagonal adaptation *)
Lemma diag_rm_range scale e it : 0 <= scale -> 0 <= diag_rm scale e it < 1.
Proof.
  intros Hs. unfold diag_rm. 
  assert (0 <= rm_stepsize scale e it).
  { unfold rm_stepsize, Rpower. pose proof (exp_pos (- e * ln (INR it))). nra. }
  unfold Rmin. destruct (Rle_dec _ _); lra.
Qed.

Lemma hull_last vs v m r : 0 <= r <= 1 -> in_hull vs m ->
  in_hull (vs ++ [v]) (fun i => (1 - r) * m i + r * v i).
Proof.
  intros Hr (w & Hl & Hw & Hs & Hm).
  exists (map (fun x => (1 - r) * x) w ++ [r]).
  repeat split.
  - rewrite !app_length, map_length, Hl. reflexivity.
  - apply Forall_app; split.
    + rewrite Forall_map. eapply Forall_impl; [|exact Hw]. intros a Ha; cbn in Ha. cbv beta. nra.
    + constructor; [lra|constructor].
  - rewrite fold_right_app. cbn.
    assert (E : forall c l a, fold_right Rplus a (map (fun x => c * x) l) = a + c * fold_right Rplus 0 l).
    { intros c l a. induction l; cbn; [lra|]. rewrite IHl. lra. }
    rewrite E, Hs. lra.
  - intros i. rewrite Hm. clear Hs Hm Hw.
    revert vs Hl. induction w as [|a w IH]; intros [|x vs] Hl; cbn in Hl; try discriminate; cbn.
    + lra.
    + injection Hl as Hl. specialize (IH vs Hl). cbn in IH. lra.
Qed.

Lemma hull_weaken vs vs' m : in_hull vs m -> in_hull (vs ++ vs') m.
Proof.
  intros (w & Hl & Hw & Hs & Hm).
  exists (w ++ map (fun _ => 0) vs').
  assert (Z : forall (l : list (nat -> R)), fold_right Rplus 0 (map (fun _ => 0) l) = 0).
  { induction l; cbn; auto. rewrite IHl; lra. }
  repeat split.
  - rewrite !app_length, map_length, Hl. reflexivity.
  - apply Forall_app; split; auto. rewrite Forall_map. apply Forall_forall. intros; lra.
  - rewrite fold_right_app, Z. exact Hs.
  - intros i. rewrite Hm. clear Hs Hm Hw.
    revert vs Hl. induction w as [|a w IH]; intros [|x vs] Hl; cbn in Hl; try discriminate; cbn.
    + induction vs'; cbn; auto. rewrite <- IHvs'. lra.
    + injection Hl as Hl. specialize (IH vs Hl). cbn in IH. lra.
Qed.

Section Diag.
  Context {Data : Type}.
  Variable normal : key -> nat -> R.
  Variable prior_potential : vec -> key -> xr.
  Variable likelihood_sample : vec -> key -> Data.
  Variable distance : Data -> xr.
  Variable uniform : key -> R.
  Variables (d : nat) (logu inc : bool) (scale nexp target : R) (cut : option nat).
  Hypothesis scale_nonneg : 0 <= scale.
  Notation upd := (abc_diag_update normal prior_potential likelihood_sample distance uniform d logu inc scale nexp target cut).

  Definition diag_inv (visited : list vec) (p : abc_par) : Prop :=
    (forall i, 0 < diag_post_cov p i) /\ in_hull visited (post_mean p).

  Lemma diag_step s e :
    let r := upd s e in
    iter (snd r) = S (iter e) /\
    ((diag_post_cov (par (snd r)) = diag_post_cov (par e) /\ post_mean (par (snd r)) = post_mean (par e)
      /\ stepsize (par (snd r)) = stepsize (par e))
     \/ let q := diag_rm scale nexp (S (iter e)) in
        let v := a_value (core (fst r)) in
        post_mean (par (snd r)) = (fun i => (1 - q) * post_mean (par e) i + q * v i)
        /\ diag_post_cov (par (snd r)) = (fun i => (1 - q) * diag_post_cov (par e) i + q * (v i - post_mean (par e) i) ^ 2)
        /\ stepsize (par (snd r)) = (fun i => diag_post_cov (par (snd r)) i / INR d * 2.38 ^ 2)).
  Proof.
    cbv zeta. unfold abc_diag_update, mcmc_update, abc_always, rm_correct. cbn [iter rkey par fst snd].
    set (re := MExtra (S (iter e)) _ (par e)).
    destruct (abc_proposal normal prior_potential likelihood_sample distance s re) as [ps pe] eqn:E.
    pose proof (metropolis_cases uniform abc_acceptance s re ps pe) as (_ & Hp & Hi & _).
    assert (Q : par pe = par e /\ iter pe = S (iter e)).
    { unfold abc_proposal in E; injection E as <- <-; auto. }
    destruct Q as [Q1 Q2].
    set (ce := metropolis_correct uniform abc_acceptance s re ps pe) in *.
    assert (I : iter (snd ce) = S (iter e)) by (rewrite Hi; destruct (xltb _ _); auto).
    assert (J : par (snd ce) = par e) by (rewrite Hp; destruct (xltb _ _); auto).
    clearbody ce. destruct ce as [cs ce]. cbn in I, J. rewrite I.
    destruct (match cut with None => true | Some c => (S (iter e) <=? c)%nat end); cbn.
    - rewrite I, J. auto.
    - rewrite I, J. auto.
  Qed.

  Lemma diag_iterate n c :
    (forall i, 0 < diag_post_cov (par (snd c)) i) ->
    in_hull [a_value (core (fst c))] (post_mean (par (snd c))) ->
    diag_inv (map (fun k => a_value (core (fst (iterate upd k c)))) (seq 0 (S n))) (par (snd (iterate upd n c))).
  Proof.
    intros H1 H2. induction n.
    - split; assumption.
    - destruct IHn as [A B]. rewrite seq_S, map_app. cbn [map plus].
      set (c' := iterate upd n c) in *.
      change (iterate upd (S n) c) with (upd (fst c') (snd c')).
      destruct (diag_step (fst c') (snd c')) as (_ & [(E1 & E2 & _)|(E1 & E2 & _)]).
      + unfold diag_inv. rewrite E1, E2. split; [exact A|]. apply hull_weaken. exact B.
      + pose proof (diag_rm_range scale nexp (S (iter (snd c'))) scale_nonneg) as Hr.
        unfold diag_inv. rewrite E1, E2. split.
        * intros i. specialize (A i).
          set (z := a_value (core (fst (upd (fst c') (snd c')))) i - post_mean (par (snd c')) i).
          pose proof (pow2_ge_0 z). cbv beta. nra.
        * apply hull_last; [lra|exact B].
  Qed.
End Diag.

(** * Keys *)
Lemma derived_trans a b c : derived a b -> derived b c -> derived a c.
Proof. intros H1 H2. induction H2; auto. constructor; auto. Qed.

Lemma derived_chain a b c : derived a c -> derived b c -> derived a b \/ derived b a.
Proof.
  intros H. induction H; intros Hb.
  - auto.
  - inversion Hb; subst.
    + left. constructor; auto.
    + auto.
Qed.

Fixpoint kdepth (k : key) : nat := match k with KRoot _ => 0 | KSplit k _ _ => S (kdepth k) end.
Lemma derived_depth a b : derived a b -> (kdepth a <= kdepth b)%nat.
Proof. induction 1; cbn; lia. Qed.
Lemma derived_same_depth a b : derived a b -> kdepth a = kdepth b -> a = b.
Proof. intros H E. destruct H; auto. apply derived_depth in H. cbn in E. lia. Qed.

(** different children of the same split have incomparable descendants *)
Lemma split_incomparable k n i j a b : i <> j ->
  derived (KSplit k n i) a -> derived (KSplit k n j) b -> incomparable a b.
Proof.
  assert (G : forall i j a b, i <> j -> derived (KSplit k n i) a -> derived (KSplit k n j) b -> ~ derived a b).
  { intros i' j' a' b' Hn Ha Hb Hab.
    assert (H := derived_trans _ _ _ Ha Hab).
    destruct (derived_chain _ _ _ H Hb) as [C|C]; apply derived_same_depth in C; cbn; auto; congruence. }
  intros Hn Ha Hb; split; eauto.
Qed.

Lemma incomparable_sym a b : incomparable a b -> incomparable b a.
Proof. unfold incomparable; tauto. Qed.

Inductive pairwise {A} (R : A -> A -> Prop) : list A -> Prop :=
| pw_nil : pairwise R []
| pw_cons x l : List.Forall (R x) l -> pairwise R l -> pairwise R (x :: l).

Lemma pairwise_app {A} (R : A -> A -> Prop) l1 l2 :
  pairwise R l1 -> pairwise R l2 -> (forall x y, In x l1 -> In y l2 -> R x y) -> pairwise R (l1 ++ l2).
Proof.
  intros H1 H2 H. induction H1; cbn; auto. constructor.
  - apply Forall_app; split; auto. apply Forall_forall. intros; apply H; cbn; auto.
  - apply IHpairwise. intros; apply H; cbn; auto.
Qed.

Lemma pairwise_antichain l : pairwise incomparable l -> antichain l.
Proof.
  intros H. induction H as [|x l Hx Hl IH]; intros i j Hij; cbn in Hij; [lia|].
  destruct j; [lia|]. destruct i.
  - cbn. rewrite Forall_forall in Hx. apply Hx, nth_In. lia.
  - cbn. apply IH. lia.
Qed.

Lemma run_draws_antichain draws next :
  (forall k, pairwise incomparable (draws k)) ->
  (forall k x, In x (draws k) -> derived k x) ->
  (forall k x, In x (draws k) -> incomparable x (next k)) ->
  (forall k, derived k (next k)) ->
  forall n k, pairwise incomparable (run_draws draws next n k)
              /\ List.Forall (derived k) (run_draws draws next n k).
Proof.
  intros H1 H2 H3 H4. induction n; intros k; cbn.
  - split; constructor.
  - destruct (IHn (next k)) as [A B]. rewrite Forall_forall in B. split.
    + apply pairwise_app; auto. intros x y Hx Hy.
      specialize (H3 k x Hx). specialize (B y Hy).
      split; intros C.
      * destruct (derived_chain _ _ _ C B); [apply (proj1 H3)|apply (proj2 H3)]; auto.
      * apply (proj2 H3). eapply derived_trans; eauto.
    + apply Forall_app; split; apply Forall_forall; eauto using derived_trans.
Qed.

Ltac kder := repeat constructor.

Lemma rw_draws_ok n k : pairwise incomparable (run_draws rw_draws rw_next_key n k).
Proof.
  apply run_draws_antichain; clear.
  - intros k. repeat constructor;
      (eapply (split_incomparable k 3); [|kder|kder]; congruence).
  - intros k x [<-|[<-|[<-|[]]]]; kder.
  - intros k x [<-|[<-|[<-|[]]]]; unfold rw_next_key.
    + eapply (split_incomparable k 3 1 0); [congruence|kder|kder].
    + eapply (split_incomparable k 3 2 0); [congruence|kder|kder].
    + eapply (split_incomparable (KSplit k 3 0) 2 1 0); [congruence|kder|kder].
  - intros k. kder.
Qed.

Lemma abc_draws_ok n k : pairwise incomparable (run_draws abc_draws abc_next_key n k).
Proof.
  apply run_draws_antichain; clear.
  - intros k. repeat constructor;
      (eapply (split_incomparable (KSplit k 2 0) 4); [|kder|kder]; congruence).
  - intros k x [<-|[<-|[<-|[<-|[]]]]]; kder.
  - intros k x [<-|[<-|[<-|[<-|[]]]]]; unfold abc_next_key.
    1-3: eapply (split_incomparable (KSplit k 2 0) 4 _ 0); [|kder|kder]; congruence.
    eapply (split_incomparable (KSplit (KSplit k 2 0) 4 0) 2 1 0); [congruence|kder|kder].
  - intros k. kder.
Qed.

(** The draws listed are all the randomness an update uses. *)
Lemma rw_update_next_key normal potential uniform s e :
  rkey (snd (rw_update normal potential uniform s e)) = rw_next_key (rkey e).
Proof.
  unfold rw_update, mcmc_update. cbn [rw_proposal fst snd].
  match goal with |- context [metropolis_correct ?u ?a ?rs ?re ?ps ?pe] =>
    destruct (metropolis_cases u a rs re ps pe) as (_ & _ & _ & _ & H) end.
  exact H.
Qed.

Lemma rw_update_local normal normal' potential potential' uniform uniform' s e :
  (forall k, In k (rw_draws (rkey e)) ->
     normal k = normal' k /\ (forall v, potential v k = potential' v k) /\ uniform k = uniform' k) ->
  rw_update normal potential uniform s e = rw_update normal' potential' uniform' s e.
Proof.
  intros H. unfold rw_update, mcmc_update, rw_proposal, metropolis_correct. cbn [iter rkey par core alpha].
  destruct (H (KSplit (rkey e) 3 1)) as (-> & _ & _); [cbn; auto|].
  destruct (H (KSplit (KSplit (rkey e) 3 0) 2 1)) as (_ & _ & ->); [cbn; auto|].
  destruct (H (KSplit (rkey e) 3 2)) as (_ & Hp & _); [cbn; auto|]. rewrite Hp. reflexivity.
Qed.

Lemma abc_update_next_key {Data} normal prior (lik : vec -> key -> Data) dist uniform s e :
  rkey (snd (abc_update normal prior lik dist uniform s e)) = abc_next_key (rkey e).
Proof.
  unfold abc_update, mcmc_update. cbn [abc_always abc_proposal fst snd].
  match goal with |- context [metropolis_correct ?u ?a ?rs ?re ?ps ?pe] =>
    destruct (metropolis_cases u a rs re ps pe) as (_ & _ & _ & _ & H) end.
  exact H.
Qed.

Lemma abc_update_local {Data} normal normal' prior prior' (lik lik' : vec -> key -> Data) dist uniform uniform' s e :
  (forall k, In k (abc_draws (rkey e)) ->
     normal k = normal' k /\ (forall v, prior v k = prior' v k) /\ (forall v, lik v k = lik' v k) /\ uniform k = uniform' k) ->
  abc_update normal prior lik dist uniform s e = abc_update normal' prior' lik' dist uniform' s e.
Proof.
  intros H. unfold abc_update, mcmc_update, abc_always, abc_proposal, metropolis_correct. cbn [iter rkey par core alpha].
  set (k := KSplit (rkey e) 2 0) in *.
  destruct (H (KSplit k 4 1)) as (-> & _); [cbn; auto|].
  destruct (H (KSplit (KSplit k 4 0) 2 1)) as (_ & _ & _ & ->); [cbn; auto|].
  destruct (H (KSplit k 4 2)) as (_ & Hp & _); [cbn; auto|]. rewrite Hp.
  destruct (H (KSplit k 4 3)) as (_ & _ & Hl & _); [cbn; auto|]. rewrite Hl. reflexivity.
Qed.

(** whole runs *)
Lemma run_local {St P} (upd upd' : mstate St -> mextra P -> mstate St * mextra P) draws next (ok : key -> Prop) :
  (forall s e, rkey (snd (upd s e)) = next (rkey e)) ->
  (forall s e, (forall k, In k (draws (rkey e)) -> ok k) -> upd s e = upd' s e) ->
  forall n c, (forall k, In k (run_draws draws next n (rkey (snd c))) -> ok k) ->
  forall m, (m <= n)%nat -> iterate upd m c = iterate upd' m c.
Proof.
  intros Hk Hl n. induction n; intros c Hok m Hm.
  - assert (m = 0%nat) by lia. subst; reflexivity.
  - destruct m; [reflexivity|]. rewrite !iterate_succ_l.
    rewrite <- (Hl (fst c) (snd c)); [|intros k Hin; apply Hok; cbn; apply in_or_app; auto].
    apply IHn; [|lia]. rewrite Hk. intros k Hin. apply Hok. cbn. apply in_or_app; auto.
Qed.
