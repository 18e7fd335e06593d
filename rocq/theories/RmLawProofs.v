(** Proofs: the law of runs of RandomWalk with RMMetropolis. *)
From Coq Require Import Reals List Arith Bool Lia Lra.
From Verif Require Import XR Keys LoopModel LoopSpec McmcModel McmcSpec McmcProofs WeightsSpec UnbSpec UnbProofs KexpSpec KexpProofs
  RejLawProofs ChainModel ChainSpec ChainProofs MalaProofs RmLawModel RmLawSpec.
Import ListNotations.
Open Scope R_scope.

Lemma adapted_param logu scale power target cut i h a :
  (if before_cut cut i then rm_adapt_param logu false scale power target i a h else h) = adapted logu scale power target cut i h a.
Proof.
  unfold before_cut, adapted. destruct (match cut with None => _ | Some _ => _ end); [|reflexivity].
  unfold rm_adapt_param, log_robbins_monro_update, robbins_monro_update, monotonicity_sign, rm_stepsize.
  rewrite Rpower_Ropp. destruct logu; [f_equal|]; unfold Rdiv; ring.
Qed.

Lemma iterate_path2 {W T St Ex : Type} (w : key -> W) (update : St -> Ex -> St * Ex) (obs : St -> Ex -> T) (kof : Ex -> key)
  (Inv : St -> Ex -> Prop) (step : (key -> W) -> T -> key -> T) (next : key -> key) :
  (forall s e, Inv s e -> Inv (fst (update s e)) (snd (update s e)) /\ kof (snd (update s e)) = next (kof e)
     /\ obs (fst (update s e)) (snd (update s e)) = step w (obs s e) (kof e)) ->
  forall n s e, Inv s e ->
  map (fun i => let r := iterate update i (s, e) in obs (fst r) (snd r)) (seq 0 (S n)) = path step next w n (obs s e) (kof e).
Proof.
  intros H. induction n as [|n IH]; intros s e I; [reflexivity|].
  change (seq 0 (S (S n))) with (0%nat :: seq 1 (S n)). cbn [map path]. f_equal. destruct (H s e I) as (I' & E1 & E2).
  rewrite <- E1, <- E2. rewrite <- (IH _ _ I'). rewrite <- (seq_shift (S n) 0), map_map.
  apply map_ext. intros i. rewrite iterate_succ_l. cbn [fst snd]. rewrite <- surjective_pairing. reflexivity.
Qed.

Section L.
  Context {W : Type}.
  Variable P : law W.
  Hypothesis HP : prob P.
  Variable unif : W -> R.
  Variable nrm : W -> nat -> R.
  Variable U : vec -> W -> xr.
  Hypothesis HU : forall v e, U v e <> NInf.
  Variable psamp : W -> vec.
  Variables (logu : bool) (scale power target : R) (cut : option nat).
  Notation nxt := (adapted logu scale power target cut).
  Notation st := (nat * (R * (vec * xr)))%type.
  Notation K := (rm_kernel P nrm U nxt).
  Notation prop := (proposed nrm).

  Definition rm_step (w : key -> W) (s : st) (k : key) : st :=
    let i := S (fst s) in let h := fst (snd s) in let cur := snd (snd s) in
    let x := prop h (fst cur) (w (KSplit k 3 1)) in
    let p := U x (w (KSplit k 3 2)) in
    let a := accept (snd cur) p in
    if Rltb (unif (w (KSplit (KSplit k 3 0) 2 1))) a then (i, (nxt i h a, (x, p))) else (i, (nxt i h a, cur)).

  Lemma rm_step_drawn s k : (forall z e, uniform_ok P unif (accept (snd (snd (snd s))) (U (prop (fst (snd s)) (fst (snd (snd s))) z) e))) ->
    drawn P (rw_draws k) (fun w => rm_step w s k) (K s).
  Proof.
    intros Hu. destruct s as [i [h cur]]. cbn [fst snd] in Hu.
    pose (G1 := fun (x : vec) (w : key -> W) => (x, U x (w (KSplit k 3 2)))).
    assert (H1 : drawn P ([KSplit k 3 1] ++ [KSplit k 3 2])
                   (fun w => G1 (prop h (fst cur) (w (KSplit k 3 1))) w)
                   (fun phi => mean P (fun z => mean P (fun e => phi (prop h (fst cur) z, U (prop h (fst cur) z) e))))).
    { apply (drawn_bind P _ _ (fun w => prop h (fst cur) (w (KSplit k 3 1))) G1
               (fun phi => mean P (fun z => phi (prop h (fst cur) z))) (fun x phi => mean P (fun e => phi (x, U x e)))).
      - apply (drawn_key P HP (KSplit k 3 1) (prop h (fst cur))).
      - intros q [<-|[]] [H|[]]. injection H. discriminate.
      - intros w. apply (drawn_key P HP (KSplit k 3 2) (fun e => (prop h (fst cur) (w (KSplit k 3 1)), U (prop h (fst cur) (w (KSplit k 3 1))) e))). }
    pose (ku := KSplit (KSplit k 3 0) 2 1).
    apply (drawn_bind P ([KSplit k 3 1] ++ [KSplit k 3 2]) [ku] _
             (fun y w => let a := accept (snd cur) (snd y) in
                if Rltb (unif (w ku)) a then (S i, (nxt (S i) h a, y)) else (S i, (nxt (S i) h a, cur))) _
             (fun y phi => let a := accept (snd cur) (snd y) in a * phi (S i, (nxt (S i) h a, y)) + (1 - a) * phi (S i, (nxt (S i) h a, cur))) H1).
    - unfold ku. intros q [<-|[<-|[]]] [H|[]]; apply (f_equal ksize) in H; cbn in H; lia.
    - intros w. apply (metropolis_drawn P HP unif (T := st)). apply Hu.
  Qed.

  Definition rm_obs (s : mstate rw_core) (e : mextra R) : st := (iter e, (par e, (rw_value (core s), rw_pot (core s)))).
  Definition rm_up (w : key -> W) :=
    rw_rm_update (fun k i => nrm (w k) i) (fun v k => U v (w k)) (fun k => unif (w k)) logu scale power target cut.
  Definition rm_inv (s : mstate rw_core) (e : mextra R) : Prop := rw_pot (core s) <> NInf /\ McmcModel.rw_step (core s) = par e.

  Lemma rm_up_step w s e : rm_inv s e ->
    rm_inv (fst (rm_up w s e)) (snd (rm_up w s e)) /\ rkey (snd (rm_up w s e)) = rw_next_key (rkey e)
    /\ rm_obs (fst (rm_up w s e)) (snd (rm_up w s e)) = rm_step w (rm_obs s e) (rkey e).
  Proof.
    intros [N Hs].
    unfold rm_up, rw_rm_update, mcmc_update, rw_proposal, rm_correct, metropolis_correct, rm_inv. cbn [rkey par iter core alpha].
    unfold rw_acceptance. cbn [core rw_pot]. rewrite accept_value; [|exact N|apply HU].
    unfold rm_step, rm_obs. cbn [fst snd]. cbn [xltb].
    change (fun i : nat => rw_value (core s) i + sqrt (par e) * nrm (w (KSplit (rkey e) 3 1)) i) with (prop (par e) (rw_value (core s)) (w (KSplit (rkey e) 3 1))).
    set (x := prop (par e) (rw_value (core s)) (w (KSplit (rkey e) 3 1))).
    set (p := U x (w (KSplit (rkey e) 3 2))). set (a := accept (rw_pot (core s)) p).
    rewrite <- adapted_param. unfold before_cut.
    assert (Np : p <> NInf) by apply HU.
    destruct (Rltb _ a); cbn [core alpha rkey par iter fst snd]; destruct (match cut with None => true | Some c => (S (iter e) <=? c)%nat end);
      unfold rw_rm_adapt, rw_rm_finish, alpha_R, rw_next_key; cbn; repeat split; try assumption; try reflexivity.
  Qed.

  Lemma rm_up_iter w s e : iter (snd (rm_up w s e)) = S (iter e).
  Proof. apply rw_rm_step. Qed.

  Definition rm_run (given : option R) (d : nat) (s0 : start) (k : key) (n : nat) (w : key -> W) : list (mstate rw_core) :=
    mcmc_run (rm_up w) n (rm_begin (fun k => psamp (w k)) (fun v k => U v (w k)) given d s0 k).
  Definition rec_obs (s : mstate rw_core) : R * (vec * xr) := (McmcModel.rw_step (core s), (rw_value (core s), rw_pot (core s))).

  Lemma rm_run_path h v k n w : map rec_obs (mcmc_run (rm_up w) n (rw_startup (fun v k => U v (w k)) v k h))
    = map snd (path rm_step rw_next_key w (n - 1) (0%nat, (h, (v, U v (w (KSplit k 2 1))))) (KSplit k 2 0)).
  Proof.
    rewrite mcmc_run_spec by (intros; apply rm_up_iter). cbn [rw_startup snd iter]. rewrite Nat.sub_0_r.
    unfold rw_startup. set (s := MState _ _). set (e := MExtra _ _ _).
    assert (I0 : rm_inv s e) by (split; [apply HU|reflexivity]).
    change (0%nat, (h, (v, U v (w (KSplit k 2 1))))) with (rm_obs s e). change (KSplit k 2 0) with (rkey e).
    rewrite <- (iterate_path2 w (rm_up w) rm_obs rkey rm_inv rm_step rw_next_key (rm_up_step w) (n - 1) s e I0).
    rewrite !map_map. apply map_ext. intros i. unfold rm_obs, rec_obs. cbn [snd]. f_equal.
    assert (I : rm_inv (fst (iterate (rm_up w) i (s, e))) (snd (iterate (rm_up w) i (s, e)))).
    { clear -I0 HU. induction i as [|i IH]; [exact I0|]. cbn [iterate]. apply rm_up_step, IH. }
    apply I.
  Qed.

  Lemma rm_start_drawn (first : vec -> Prop) h v k n : first v -> rm_uniform P nrm U nxt unif h first (n - 1) ->
    drawn P ([KSplit k 2 1] ++ path_keys rw_next_key rw_draws (n - 1) (KSplit k 2 0))
    (fun w => map rec_obs (mcmc_run (rm_up w) n (rw_startup (fun v k => U v (w k)) v k h)))
    (fun phi => mean P (fun e => chain_mean K (n - 1) (0%nat, (h, (v, U v e))) (fun l => phi (map snd l)))).
  Proof.
    intros Hv Hu. eapply drawn_ext. { intros w. symmetry. apply rm_run_path. }
    apply (drawn_bind P [KSplit k 2 1] _ (fun w => w (KSplit k 2 1))
             (fun e w => map snd (path rm_step rw_next_key w (n - 1) (0%nat, (h, (v, U v e))) (KSplit k 2 0)))
             (fun phi => mean P phi) (fun e phi => chain_mean K (n - 1) (0%nat, (h, (v, U v e))) (fun l => phi (map snd l)))).
    - apply (drawn_key P HP (KSplit k 2 1) (fun x => x)).
    - intros q [<-|[]] H. apply path_keys_derived in H.
      + apply derived_split_inv in H. lia.
      + intros k'. unfold rw_next_key. repeat constructor.
      + apply rw_draws_derived.
    - intros w. apply (drawn_map P _ (fun w' => path rm_step rw_next_key w' (n - 1) (0%nat, (h, (v, U v (w (KSplit k 2 1))))) (KSplit k 2 0)) (map snd)).
      apply (path_drawn_upto P HP rm_step rw_next_key rw_draws K
        (fun t s => rm_reach nrm U nxt h first s /\ fst s = t) (n - 1)) with (i := 0%nat); [| | | | | |lia].
      + intros i w' [j [h' s]] k' [H E]. cbn in E. subst j. unfold rm_step. cbn [fst snd]. destruct (Rltb _ _); cbn [fst]; (split; [|reflexivity]); [apply rm_reach_moved|apply rm_reach_kept]; exact H.
      + intros i [j [h' s]] k' [H E] Hi. cbn in E. subst j. apply rm_step_drawn. intros z e. exact (Hu i h' s z e H Hi).
      + intros k'. unfold rw_next_key. repeat constructor.
      + apply rw_fresh.
      + apply rw_draws_derived.
      + split; [apply rm_reach_first, Hv|reflexivity].
  Qed.

  Lemma rm_run_drawn given d st0 k n : let h := rm_first_stepsize given d in
    rm_uniform P nrm U nxt unif h (start_point psamp st0) (n - 1) -> exists ks, drawn P ks (fun w => map rec_obs (rm_run given d st0 k n w))
    (fun phi => start_mean P psamp st0 (fun v => mean P (fun e => chain_mean K (n - 1) (0%nat, (h, (v, U v e))) (fun l => phi (map snd l))))).
  Proof.
    intros h Hu. unfold rm_run, rm_begin, rw_begin. fold h. destruct st0 as [v| |]; cbn [initial_value fst snd start_mean].
    - eexists. apply (rm_start_drawn _ h v k n eq_refl Hu).
    - eexists. apply (drawn_bind P [KSplit k 2 1] ([KSplit (KSplit k 2 0) 2 1] ++ path_keys rw_next_key rw_draws (n - 1) (KSplit (KSplit k 2 0) 2 0)) (fun w => psamp (w (KSplit k 2 1)))
        (fun v w => map rec_obs (mcmc_run (rm_up w) n (rw_startup (fun v k => U v (w k)) v (KSplit k 2 0) h)))
        (fun phi => mean P (fun x => phi (psamp x)))
        (fun v phi => mean P (fun e => chain_mean K (n - 1) (0%nat, (h, (v, U v e))) (fun l => phi (map snd l))))).
      + apply (drawn_key P HP (KSplit k 2 1) psamp).
      + intros q [<-|[]] H. apply rw_start_keys in H. apply derived_split_inv in H. lia.
      + intros w. apply (rm_start_drawn _ h _ _ n (ex_intro _ _ eq_refl) Hu).
    - eexists. apply (rm_start_drawn _ h (fun _ => 0) k n eq_refl Hu).
  Qed.

  (** ** After the cut-off *)
  Lemma rm_kernel_ext s f g : (forall y, f y = g y) -> K s f = K s g.
  Proof. intros E. unfold rm_kernel. apply mean_fext. intros z. apply mean_fext. intros e. cbv zeta. rewrite !E. reflexivity. Qed.

  Notation over := (adapted_all cut).
  Lemma adapted_over i h a : over i -> nxt (S i) h a = h.
  Proof. unfold adapted_all, adapted. destruct cut as [c|]; [|intros []]. intros H. destruct (Nat.leb_spec (S i) c); [lia|reflexivity]. Qed.

  Lemma frozen_kernel i h s f : over i ->
    K (i, (h, s)) f = rw_kernel P nrm U h s (fun y => f (S i, (h, y))).
  Proof.
    intros H. unfold rm_kernel, rw_kernel, walk_kernel. apply mean_fext. intros z. apply mean_fext. intros e. cbn [fst snd]. cbv zeta.
    rewrite !adapted_over by exact H. reflexivity.
  Qed.

  Lemma frozen_chain m : forall i h s phi, over i ->
    chain_mean K m (i, (h, s)) (fun l => phi (map snd l))
    = chain_mean (rw_kernel P nrm U h) m s (fun l => phi (map (fun y => (h, y)) l)).
  Proof.
    induction m as [|m IH]; intros i h s phi H; cbn [chain_mean]; [reflexivity|].
    rewrite frozen_kernel by exact H. apply kernel_ext. intros y. cbn [map].
    apply (IH (S i) h y (fun l => phi (snd (i, (h, s)) :: l))).
    unfold adapted_all in *. destruct cut; [lia|exact H].
  Qed.

  Lemma chain_heads (n : nat) s phi psi : (forall l, phi (s :: l) = psi (s :: l)) -> chain_mean K n s phi = chain_mean K n s psi.
  Proof.
    intros E. destruct n as [|n]; cbn [chain_mean]; [apply E|]. apply rm_kernel_ext. intros y.
    apply (chain_any_ext K rm_kernel_ext). exact E.
  Qed.

  Lemma frozen_split m : forall c s phi, over (fst s + c) ->
    chain_mean K (c + m) s (fun l => phi (map snd l)) = chain_mean K c s (frozen_rest P nrm U m phi s).
  Proof.
    induction c as [|c IH]; intros s phi H.
    - cbn [Nat.add chain_mean]. unfold frozen_rest. cbn [last removelast map app]. rewrite Nat.add_0_r in H.
      destruct s as [i [h s]]. apply frozen_chain, H.
    - cbn [Nat.add chain_mean]. unfold rm_kernel. apply mean_fext. intros z. apply mean_fext. intros e. cbv zeta.
      assert (E : forall y : st, fst y = S (fst s) -> chain_mean K (c + m) y (fun l => phi (map snd (s :: l)))
        = chain_mean K c y (fun l => frozen_rest P nrm U m phi s (s :: l))).
      { intros y Hy. cbn [map]. rewrite (IH y (fun l => phi (snd s :: l))).
        - apply chain_heads. intros l. unfold frozen_rest. 
          replace (last (s :: y :: l) s) with (last (y :: l) y); [reflexivity|].
          change (last (s :: y :: l) s) with (last (y :: l) s). clear. revert y. induction l as [|a l IH]; intros y; [reflexivity|].
          change (last (a :: l) y = last (a :: l) s). clear. revert a. induction l as [|b l IH]; intros a; [reflexivity|apply (IH b)].
        - rewrite Hy. replace (S (fst s) + c)%nat with (fst s + S c)%nat by lia. exact H. }
      rewrite !E by reflexivity. reflexivity.
  Qed.
End L.
