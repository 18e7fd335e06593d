From Coq Require Import Reals List Arith Bool Lia Lra FunctionalExtensionality.
From Verif Require Import XR Keys LoopModel LoopSpec McmcModel McmcSpec McmcProofs HmcModel HmcSpec.
Import ListNotations.
Open Scope R_scope.

Lemma coherent_at_value pp lp T v m k : coherent pp lp T (at_value pp lp T v m k).
Proof.
  unfold at_value. destruct (pp v k) as [a b] eqn:E1, (lp v k) as [c e] eqn:E2.
  exists k. cbn. rewrite E1, E2. repeat split; auto.
Qed.

Lemma coherent_set_mom pp lp T s m : coherent pp lp T s -> coherent pp lp T (set_mom s m).
Proof. intros H; exact H. Qed.
Lemma coherent_flip pp lp T s : coherent pp lp T s -> coherent pp lp T (flip s).
Proof. intros H; exact H. Qed.

Section L.
  Variables prior_pg lik_pg : vec -> key -> xr * vec.
  Variable T : R.
  Variable minv : vec -> vec.
  Variable eps : R.
  Notation step := (leapfrog_step prior_pg lik_pg T minv eps).
  Notation coh := (coherent prior_pg lik_pg T).

  Lemma step_coherent s k : coh (fst (step s k)).
  Proof.
    unfold leapfrog_step. cbn [fst].
    set (v := vadd _ _). set (m := vadd (h_mom s) _).
    destruct (coherent_at_value prior_pg lik_pg T v m k) as (k' & A & B & C & D).
    exists k'. cbn. auto.
  Qed.

  Fixpoint walk (s : hstate) (ks : list key) : hstate :=
    match ks with [] => s | k :: ks' => walk (fst (step s k)) ks' end.

  Lemma last_cons_default {A} (x d : A) l : last (x :: l) d = last l x.
  Proof.
    revert x d. induction l as [|y l IH]; intros x d; [reflexivity|].
    change (last (x :: y :: l) d) with (last (y :: l) d). rewrite !IH. reflexivity.
  Qed.

  Lemma step_shape s k : exists ph, step s k = (fst (step s k), (fst (step s k), [ph; h_mom (fst (step s k))])).
  Proof. eexists. reflexivity. Qed.

  Lemma scan_last s ks :
    last (map fst (snd (scan step s ks))) s = walk s ks
    /\ last (concat (map snd (snd (scan step s ks)))) (h_mom s) = h_mom (walk s ks).
  Proof.
    revert s. induction ks as [|k ks IH]; intros s; [split; reflexivity|].
    cbn [scan walk]. destruct (step_shape s k) as [ph E]. rewrite E.
    set (n := fst (step s k)) in *. clearbody n. cbn [fst].
    specialize (IH n). destruct (scan step n ks) as [c os] eqn:Es. cbn [snd map fst concat] in *.
    destruct IH as [I1 I2]. cbn [app]. rewrite !last_cons_default. auto.
  Qed.

  Lemma leapfrog_last_walk s ks : leapfrog_last prior_pg lik_pg T minv eps s ks = walk s ks.
  Proof.
    unfold leapfrog_last, leapfrog. rewrite !last_cons_default.
    destruct (scan_last s ks) as [-> ->]. destruct (walk s ks); reflexivity.
  Qed.

  Lemma walk_coherent s ks : coh s -> coh (walk s ks).
  Proof. revert s. induction ks; intros s H; cbn [walk]; auto. apply IHks, step_coherent. Qed.

  Lemma walk_app s a b : walk s (a ++ b) = walk (walk s a) b.
  Proof. revert s. induction a; intros s; cbn; auto. Qed.

  (** shapes *)
  Lemma scan_lengths s ks :
    length (snd (scan step s ks)) = length ks
    /\ length (concat (map snd (snd (scan step s ks)))) = (2 * length ks)%nat.
  Proof.
    revert s. induction ks as [|k ks IH]; intros s; [split; reflexivity|].
    cbn [scan]. destruct (step_shape s k) as [ph E]. rewrite E.
    set (n := fst (step s k)) in *. clearbody n.
    specialize (IH n). destruct (scan step n ks) as [c os]. cbn [snd map concat] in *.
    destruct IH as [I1 I2]. cbn [length app]. rewrite I1, I2. lia.
  Qed.

  Hypothesis minv_odd : forall p i, minv (vopp p) i = - minv p i.
  Hypothesis prior_det : forall v k k', prior_pg v k = prior_pg v k'.
  Hypothesis lik_det : forall v k k', lik_pg v k = lik_pg v k'.

  Lemma coherent_ext s s' : coh s -> coh s' -> h_value s = h_value s' -> h_mom s = h_mom s' -> s = s'.
  Proof.
    intros (k & A & B & C & D) (k' & A' & B' & C' & D') Hv Hm.
    rewrite <- Hv in A', B'. rewrite (prior_det _ k' k) in A'. rewrite (lik_det _ k' k) in B'.
    rewrite A in A'. rewrite B in B'. injection A' as A1 A2. injection B' as B1 B2.
    destruct s, s'. cbn in *. subst. f_equal.
    apply functional_extensionality. intros i. rewrite D, D'. reflexivity.
  Qed.

  Lemma coherent_gpot s s' : coh s -> coh s' -> h_value s = h_value s' -> h_gpot s = h_gpot s'.
  Proof.
    intros H H' Hv.
    assert (E : set_mom s (h_mom s') = s').
    { apply coherent_ext; auto. }
    rewrite <- E. reflexivity.
  Qed.

  Lemma step_eqs s k :
    let ph := vadd (h_mom s) (vscale (- (eps / 2)) (h_gpot s)) in
    h_value (fst (step s k)) = vadd (h_value s) (vscale eps (minv ph))
    /\ h_mom (fst (step s k)) = vadd ph (vscale (- (eps / 2)) (h_gpot (fst (step s k)))).
  Proof.
    cbv zeta. unfold leapfrog_step. cbn [fst h_value h_mom h_gpot].
    unfold at_value. destruct (prior_pg _ k), (lik_pg _ k). split; reflexivity.
  Qed.

  Lemma step_reverse s k k' : coh s ->
    flip (fst (step (flip (fst (step s k))) k')) = s.
  Proof.
    intros Hs.
    pose proof (step_coherent (flip (fst (step s k))) k') as H2.
    destruct (step_eqs s k) as [V1 M1]. destruct (step_eqs (flip (fst (step s k))) k') as [V2 M2].
    set (n := fst (step s k)) in *. clearbody n. set (r := fst (step (flip n) k')) in *. clearbody r.
    cbn [flip h_mom h_gpot h_value] in *.
    set (ph := vadd (h_mom s) (vscale (- (eps / 2)) (h_gpot s))) in *.
    assert (E : vadd (vopp (h_mom n)) (vscale (- (eps / 2)) (h_gpot n)) = vopp ph).
    { rewrite M1. apply functional_extensionality. intros i. unfold vadd, vopp, vscale. lra. }
    rewrite E in *.
    assert (V : h_value r = h_value s).
    { rewrite V2, V1. apply functional_extensionality. intros i. unfold vadd, vscale. rewrite minv_odd. lra. }
    apply coherent_ext; auto. cbn [flip h_mom].
    rewrite M2, (coherent_gpot _ _ H2 Hs V). unfold ph.
    apply functional_extensionality. intros i. unfold vadd, vopp, vscale. lra.
  Qed.

  Lemma flip_flip s : flip (flip s) = s.
  Proof.
    destruct s. unfold flip. cbn. f_equal. apply functional_extensionality. intros i. unfold vopp. lra.
  Qed.

  Lemma walk_reverse s ks ks' : coh s -> length ks = length ks' ->
    flip (walk (flip (walk s ks)) ks') = s.
  Proof.
    intros Hs Hl.
    (* induct on ks from the front, peeling ks' from the back *)
    revert s ks' Hs Hl. induction ks as [|k ks IH]; intros s ks' Hs Hl.
    - destruct ks'; [|discriminate]. cbn. apply flip_flip.
    - destruct (@exists_last _ ks') as (l & k' & E); [destruct ks'; discriminate|]. subst ks'.
      rewrite app_length in Hl. cbn in Hl.
      cbn [walk]. rewrite walk_app. cbn [walk].
      specialize (IH (fst (step s k)) l (step_coherent s k) ltac:(lia)).
      apply (f_equal flip) in IH. rewrite flip_flip in IH. rewrite IH.
      apply step_reverse. exact Hs.
  Qed.
End L.

(** * Underdamped chain *)
Section UD.
  Variable d : nat.
  Variable normal : key -> nat -> R.
  Variables prior_pg lik_pg : vec -> key -> xr * vec.
  Variable T : R.
  Variable L : nat.
  Variable uniform : key -> R.
  Notation coh := (coherent prior_pg lik_pg T).
  Notation upd := (ud_update d normal prior_pg lik_pg T L uniform).

  Lemma ud_update_cases s e :
    let a := ud_always normal s (MExtra (S (iter e)) (rkey e) (par e)) in
    let p := ud_proposal prior_pg lik_pg T L (fst a) (snd a) in
    let r := upd s e in
    (core (fst r) = core (fst a) \/ core (fst r) = core (fst p))
    /\ iter (snd r) = S (iter e) /\ par (snd r) = par e.
  Proof.
    cbv zeta. unfold ud_update, mcmc_update.
    destruct (ud_always normal s _) as [rs re] eqn:E1. cbn [fst snd].
    destruct (ud_proposal prior_pg lik_pg T L rs re) as [ps pe] eqn:E2. cbn [fst].
    assert (A : iter re = S (iter e) /\ par re = par e) by (unfold ud_always in E1; injection E1 as <- <-; auto).
    assert (B : iter pe = iter re /\ par pe = par re) by (unfold ud_proposal in E2; injection E2 as <- <-; auto).
    destruct A as [A1 A2], B as [B1 B2].
    destruct (metropolis_cases uniform (ud_acceptance d) rs re ps pe) as (H1 & H2 & H3 & _).
    rewrite H1, H2, H3. destruct (xltb _ _); repeat split; auto; congruence.
  Qed.

  Lemma ud_coherent_step s e : coh (core s) -> coh (core (fst (upd s e))).
  Proof.
    intros H. destruct (ud_update_cases s e) as ([E|E] & _); rewrite E.
    - exact H.
    - unfold ud_proposal. cbn [fst core]. apply coherent_flip. rewrite leapfrog_last_walk.
      apply walk_coherent. exact H.
  Qed.

  Lemma ud_coherent_iterate n c : coh (core (fst c)) -> coh (core (fst (iterate upd n c))).
  Proof. intros H; induction n; cbn; auto. apply ud_coherent_step; auto. Qed.
End UD.

(** * Quasi-Newton *)
Lemma vdot_opp_r d a b : vdot d a (vopp b) = - vdot d a b.
Proof. induction d; cbn; [lra|]. rewrite IHd. unfold vopp. lra. Qed.
Lemma vdot_opp_opp d a : vdot d (vopp a) (vopp a) = vdot d a a.
Proof. induction d; cbn; [lra|]. rewrite IHd. unfold vopp. lra. Qed.

Lemma bfgs_prod_odd d l diag z : bfgs_prod d l diag (vopp z) = vopp (bfgs_prod d l diag z).
Proof.
  unfold bfgs_prod.
  assert (G : forall l c, fold_left (fun c pq => vadd c (vscale (- vdot d (snd pq) c) (fst pq))) l (vopp c)
      = vopp (fold_left (fun c pq => vadd c (vscale (- vdot d (snd pq) c) (fst pq))) l c)).
  { intros l1. induction l1 as [|a l0 IH]; intros c; cbn; auto.
    rewrite <- IH. f_equal. apply functional_extensionality. intros i.
    unfold vadd at 1, vscale at 1. rewrite vdot_opp_r. unfold vadd, vscale, vopp. lra. }
  rewrite <- G. f_equal. apply functional_extensionality. intros i. unfold vscale, vopp. lra.
Qed.

Lemma bfgs_tprod_odd d l diag z : bfgs_tprod d l diag (vopp z) = vopp (bfgs_tprod d l diag z).
Proof.
  unfold bfgs_tprod.
  assert (G : forall l c, fold_left (fun c pq => vadd c (vscale (- vdot d (fst pq) c) (snd pq))) l (vopp c)
      = vopp (fold_left (fun c pq => vadd c (vscale (- vdot d (fst pq) c) (snd pq))) l c)).
  { intros l1. induction l1 as [|a l0 IH]; intros c; cbn; auto.
    rewrite <- IH. f_equal. apply functional_extensionality. intros i.
    unfold vadd at 1, vscale at 1. rewrite vdot_opp_r. unfold vadd, vscale, vopp. lra. }
  rewrite G. apply functional_extensionality. intros i. unfold vscale, vopp. lra.
Qed.

Lemma qn_minv_odd d pqs diag mem p i : qn_minv d pqs diag mem (vopp p) i = - qn_minv d pqs diag mem p i.
Proof. unfold qn_minv. rewrite bfgs_tprod_odd, bfgs_prod_odd. reflexivity. Qed.

Lemma lastn_push {A} m (l : list A) x : (1 <= m)%nat -> (m <= length l)%nat ->
  lastn m (l ++ [x]) = tl (lastn m l) ++ [x].
Proof.
  intros Hm Hl. unfold lastn. rewrite app_length. cbn.
  replace (length l + 1 - m)%nat with (S (length l - m)) by lia.
  assert (G : forall (n : nat) (l : list A), (n < length l)%nat -> skipn (S n) (l ++ [x]) = tl (skipn n l) ++ [x]).
  { induction n; intros [|a l0] Hn; cbn in Hn; try lia; [reflexivity|].
    cbn [app]. change (skipn (S (S n)) (a :: l0 ++ [x])) with (skipn (S n) (l0 ++ [x])).
    rewrite IHn by lia. reflexivity. }
  apply G. lia.
Qed.

Section QNP.
  Variable d : nat.
  Variable normal : key -> nat -> R.
  Variables prior_pg lik_pg : vec -> key -> xr * vec.
  Variable T : R.
  Variable L : nat.
  Variable pqs uts : list mrow -> list (vec * vec).
  Variable diag : R.
  Variable uniform : key -> R.
  Notation upd := (qn_update d normal prior_pg lik_pg T L pqs uts diag uniform).

  Lemma qn_update_cases s e :
    let a := qn_always d normal uts diag s (MExtra (S (iter e)) (rkey e) (par e)) in
    let p := qn_proposal d prior_pg lik_pg T L pqs diag (fst a) (snd a) in
    let r := upd s e in
    (core (fst r) = core (fst a) \/ core (fst r) = core (fst p))
    /\ iter (snd r) = S (iter e) /\ par (snd r) = par e.
  Proof.
    cbv zeta. unfold qn_update, mcmc_update.
    destruct (qn_always d normal uts diag s _) as [rs re] eqn:E1. cbn [fst snd].
    destruct (qn_proposal d prior_pg lik_pg T L pqs diag rs re) as [ps pe] eqn:E2. cbn [fst].
    assert (A : iter re = S (iter e) /\ par re = par e) by (unfold qn_always in E1; injection E1 as <- <-; auto).
    assert (B : iter pe = iter re /\ par pe = par re) by (unfold qn_proposal in E2; injection E2 as <- <-; auto).
    destruct A as [A1 A2], B as [B1 B2].
    destruct (metropolis_cases uniform (qn_acceptance d pqs diag) rs re ps pe) as (H1 & H2 & H3 & _).
    rewrite H1, H2, H3. destruct (xltb _ _); repeat split; auto; congruence.
  Qed.

  Lemma qn_memory_step s e : q_mem (core (fst (upd s e))) = push_memory (q_mem (core s)) (row_of (q_core (core s))).
  Proof. destruct (qn_update_cases s e) as ([E|E] & _); rewrite E; reflexivity. Qed.

  Lemma qn_coherent_step s e : coherent prior_pg lik_pg T (q_core (core s)) ->
    coherent prior_pg lik_pg T (q_core (core (fst (upd s e)))).
  Proof.
    intros H. destruct (qn_update_cases s e) as ([E|E] & _); rewrite E.
    - exact H.
    - unfold qn_proposal. cbn [fst core q_core]. apply coherent_flip. rewrite leapfrog_last_walk.
      apply walk_coherent. exact H.
  Qed.

  Lemma qn_memory_window m c n : (1 <= m)%nat -> length (q_mem (core (fst c))) = m ->
    q_mem (core (fst (iterate upd n c)))
    = lastn m (q_mem (core (fst c)) ++ map (fun i => row_of (q_core (core (fst (iterate upd i c))))) (seq 0 n)).
  Proof.
    intros Hm Hl. induction n.
    - cbn [iterate seq map]. rewrite app_nil_r. unfold lastn. rewrite Hl, Nat.sub_diag. reflexivity.
    - rewrite seq_S, map_app, app_assoc. cbn [map plus].
      rewrite lastn_push by (auto; rewrite app_length; lia).
      rewrite <- IHn. cbn [iterate]. rewrite qn_memory_step. reflexivity.
  Qed.
End QNP.

(** * Balance of the underdamped acceptance *)
Definition ud_acc_x (u v : xr) (ku kv : R) : xr :=
  xmin (Fin 1) (xexp (xadd (xsub (xadd (xopp v) u) (Fin kv)) (Fin ku))).

Lemma ud_acc_x_fin a b ka kb : ud_acc_x (Fin a) (Fin b) ka kb = Fin (Rmin 1 (exp (- (b + kb) + (a + ka)))).
Proof.
  unfold ud_acc_x. cbn. unfold Rleb, Rmin.
  replace (- b + a + - kb + ka) with (- (b + kb) + (a + ka)) by lra.
  destruct (Rle_dec 1 _); reflexivity.
Qed.

Lemma ud_balance_x u v ku kv : (finite u \/ u = PInf) -> (finite v \/ v = PInf) ->
  density u * exp (- ku) * xval (clean_alpha (ud_acc_x u v ku kv))
  = density v * exp (- kv) * xval (clean_alpha (ud_acc_x v u kv ku)).
Proof.
  intros [[a ->]| ->] [[b ->]| ->].
  - rewrite !ud_acc_x_fin. cbn. rewrite <- !exp_plus.
    replace (- a + - ku) with (- (a + ku)) by lra. replace (- b + - kv) with (- (b + kv)) by lra.
    apply exp_min_balance.
  - unfold ud_acc_x; cbn. unfold Rleb. destruct (Rle_dec 1 0); [lra|]. cbn. lra.
  - unfold ud_acc_x; cbn. unfold Rleb. destruct (Rle_dec 1 0); [lra|]. cbn. lra.
  - cbn. lra.
Qed.

(** kinetic energies against their independent statements *)
Lemma vdot_inner d a b : vdot d a b = inner d a b.
Proof.
  unfold inner. induction d as [|d IH]; [reflexivity|].
  rewrite seq_S, fold_right_app. cbn [vdot fold_right plus]. rewrite IH.
  generalize (a d * b d). intros t. generalize (seq 0 d). intros l.
  induction l as [|i l IHl]; cbn [fold_right]; [lra|]. rewrite <- IHl. lra.
Qed.
Lemma vdot_comm d a b : vdot d a b = vdot d b a.
Proof. induction d; cbn; [reflexivity|]. rewrite IHd. lra. Qed.
Lemma vdot_add_r d a b c : vdot d a (vadd b c) = vdot d a b + vdot d a c.
Proof. induction d; cbn; [lra|]. rewrite IHd. unfold vadd. lra. Qed.
Lemma vdot_scale_r d a c b : vdot d a (vscale c b) = c * vdot d a b.
Proof. induction d; cbn; [lra|]. rewrite IHd. unfold vscale. lra. Qed.

Lemma bfgs_adjoint d l D z w : vdot d (bfgs_prod d l D z) w = vdot d z (bfgs_tprod d l D w).
Proof.
  unfold bfgs_prod, bfgs_tprod. rewrite vdot_scale_r.
  assert (E : forall c, vdot d (fold_left (fun c pq => vadd c (vscale (- vdot d (snd pq) c) (fst pq))) l c) w
    = vdot d c (fold_left (fun c pq => vadd c (vscale (- vdot d (fst pq) c) (snd pq))) (rev l) w)).
  { induction l as [|[p q] l IH]; intros c; cbn [fold_left rev fst snd]; [reflexivity|].
    rewrite IH, fold_left_app. cbn [fold_left fst snd].
    set (y := fold_left _ (rev l) w). clearbody y.
    rewrite vdot_add_r, vdot_scale_r, vdot_comm, vdot_add_r, vdot_scale_r.
    rewrite (vdot_comm d y c), (vdot_comm d y p), (vdot_comm d q c). lra. }
  rewrite E, vdot_comm, vdot_scale_r, vdot_comm. reflexivity.
Qed.

Lemma qn_kinetic_inner d pqs diag mem p :
  qn_kinetic d pqs diag mem p = inner d p (qn_minv d pqs diag mem p) / 2.
Proof.
  rewrite <- vdot_inner. unfold qn_kinetic, qn_minv.
  rewrite (vdot_comm d p), bfgs_adjoint. reflexivity.
Qed.
