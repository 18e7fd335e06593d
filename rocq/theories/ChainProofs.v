(** Proofs: the law of random-walk Metropolis runs, and its invariance. *)
From Coq Require Import Reals List Arith Bool Lia Lra Permutation FunctionalExtensionality Classical Epsilon.
From Verif Require Import XR Keys LoopModel LoopSpec McmcModel McmcSpec McmcProofs WeightsSpec UnbSpec UnbProofs KexpSpec KexpProofs
  RejLawProofs ChainModel ChainSpec.
Import ListNotations.
Open Scope R_scope.

(** * Chains whose steps read fresh keys *)
Section Fresh.
  Context {W T : Type}.
  Variable P : law W.
  Hypothesis HP : prob P.
  Variable step : (key -> W) -> T -> key -> T.
  Variable next : key -> key.
  Variable keys : key -> list key.
  Variable K : T -> (T -> R) -> R.
  Variable good : T -> Prop.
  Hypothesis Hgood : forall w x k, good x -> good (step w x k).
  Hypothesis Hlaw : forall x k, good x -> drawn P (keys k) (fun w => step w x k) (K x).
  Hypothesis Hnext : forall k, derived k (next k).
  Hypothesis Hfresh : forall k q, In q (keys k) -> derived (next k) q -> False.

  Hypothesis Hkeys : forall k q, In q (keys k) -> derived k q.

  Fixpoint path (w : key -> W) (n : nat) (x : T) (k : key) : list T :=
    match n with
    | O => [x]
    | S n' => x :: path w n' (step w x k) (next k)
    end.

  Fixpoint path_keys (n : nat) (k : key) : list key :=
    match n with O => [] | S n' => keys k ++ path_keys n' (next k) end.

  Lemma path_keys_derived n : forall k q, In q (path_keys n k) -> derived k q.
  Proof.
    induction n as [|n IH]; intros k q H; cbn in H; [contradiction|].
    apply in_app_or in H. destruct H as [H|H]; [apply Hkeys, H|].
    apply (derived_trans _ (next k)); [apply Hnext|apply IH, H].
  Qed.

  Lemma path_drawn n : forall x k, good x -> drawn P (path_keys n k) (fun w => path w n x k) (chain_mean K n x).
  Proof.
    induction n as [|n IH]; intros x k G.
    - cbn [path_keys path chain_mean]. apply (drawn_const P HP [x]).
    - cbn [path_keys path chain_mean].
      apply (drawn_bind P (keys k) (path_keys n (next k)) (fun w => step w x k)
               (fun y w => x :: path w n y (next k)) (K x) (fun y phi => chain_mean K n y (fun l => phi (x :: l)))).
      + apply Hlaw, G.
      + intros q H1 H2. apply (Hfresh k q H1), (path_keys_derived _ _ _ H2).
      + intros w. apply (drawn_map P (path_keys n (next k)) (fun w' => path w' n (step w x k) (next k)) (fun l => x :: l)
                           (chain_mean K n (step w x k))).
        apply IH, Hgood, G.
  Qed.
End Fresh.

(** the same, with what is known of the state after [i] of at most [N] steps *)
Section FreshUpto.
  Context {W T : Type}.
  Variable P : law W.
  Hypothesis HP : prob P.
  Variable step : (key -> W) -> T -> key -> T.
  Variable next : key -> key.
  Variable keys : key -> list key.
  Variable K : T -> (T -> R) -> R.
  Variable good : nat -> T -> Prop.
  Variable N : nat.
  Hypothesis Hgood : forall i w x k, good i x -> good (S i) (step w x k).
  Hypothesis Hlaw : forall i x k, good i x -> (i < N)%nat -> drawn P (keys k) (fun w => step w x k) (K x).
  Hypothesis Hnext : forall k, derived k (next k).
  Hypothesis Hfresh : forall k q, In q (keys k) -> derived (next k) q -> False.
  Hypothesis Hkeys : forall k q, In q (keys k) -> derived k q.

  Lemma path_drawn_upto n : forall i x k, good i x -> (i + n <= N)%nat ->
    drawn P (path_keys next keys n k) (fun w => path step next w n x k) (chain_mean K n x).
  Proof.
    induction n as [|n IH]; intros i x k G L.
    - cbn [path_keys path chain_mean]. apply (drawn_const P HP [x]).
    - cbn [path_keys path chain_mean].
      apply (drawn_bind P (keys k) (path_keys next keys n (next k)) (fun w => step w x k)
               (fun y w => x :: path step next w n y (next k)) (K x) (fun y phi => chain_mean K n y (fun l => phi (x :: l)))).
      + apply (Hlaw i); [exact G|lia].
      + intros q H1 H2. apply (Hfresh k q H1), (path_keys_derived next keys Hnext Hkeys _ _ _ H2).
      + intros w. apply (drawn_map P (path_keys next keys n (next k)) (fun w' => path step next w' n (step w x k) (next k)) (fun l => x :: l)
                           (chain_mean K n (step w x k))).
        apply (IH (S i)); [apply Hgood, G|lia].
  Qed.
End FreshUpto.

(** observed paths of a run *)
Lemma iterate_path {W T St Ex : Type} (w : key -> W) (update : St -> Ex -> St * Ex) (obs : St -> T) (kof : Ex -> key)
  (Inv : St -> Ex -> Prop) (step : (key -> W) -> T -> key -> T) (next : key -> key) :
  (forall s e, Inv s e -> Inv (fst (update s e)) (snd (update s e)) /\ kof (snd (update s e)) = next (kof e)
     /\ obs (fst (update s e)) = step w (obs s) (kof e)) ->
  forall n s e, Inv s e ->
  map (fun i => obs (fst (iterate update i (s, e)))) (seq 0 (S n)) = path step next w n (obs s) (kof e).
Proof.
  intros H. induction n as [|n IH]; intros s e I; [reflexivity|].
  change (seq 0 (S (S n))) with (0%nat :: seq 1 (S n)). cbn [map path]. f_equal. destruct (H s e I) as (I' & E1 & E2).
  rewrite <- E1, <- E2. rewrite <- (IH _ _ I'). rewrite <- (seq_shift (S n) 0), map_map.
  apply map_ext. intros i. rewrite iterate_succ_l. cbn [fst snd]. rewrite <- surjective_pairing. reflexivity.
Qed.

(** * The Metropolis step *)
Section Metropolis.
  Context {W : Type}.
  Variable P : law W.
  Hypothesis HP : prob P.
  Variable unif : W -> R.

  Lemma metropolis_drawn {T} (y x : T) k a : uniform_ok P unif a ->
    drawn P [k] (fun w => if Rltb (unif (w k)) a then y else x) (fun phi => a * phi y + (1 - a) * phi x).
  Proof.
    intros H. apply (drawn_law P [k] _ (fun phi => mean P (fun u => phi (if Rltb (unif u) a then y else x)))).
    - intros phi. apply (H (fun b => phi (if b then y else x))).
    - apply (drawn_key P HP k (fun u => if Rltb (unif u) a then y else x)).
  Qed.

  Lemma accept_value p p' : p <> NInf -> p' <> NInf ->
    clean_alpha (xmin (Fin 1) (xexp (xadd (xopp p') p))) = Fin (accept p p').
  Proof.
    intros H H'. destruct p as [a| | |], p' as [b| | |]; cbn; try congruence; try reflexivity.
    - unfold Rleb, Rmin. replace (- b + a) with (a - b) by lra. destruct (Rle_dec _ _); cbn; reflexivity.
    - unfold Rleb. destruct (Rle_dec _ _); cbn; [lra|reflexivity].
  Qed.

  Variable nrm : W -> nat -> R.
  Variable U : vec -> W -> xr.
  Hypothesis HU : forall v e, U v e <> NInf.

  Definition rw_prop (h : R) (x : vec) (z : W) : vec := fun i => x i + sqrt h * nrm z i.
  Definition rw_step (h : R) (w : key -> W) (s : vec * xr) (k : key) : vec * xr :=
    let x := rw_prop h (fst s) (w (KSplit k 3 1)) in
    let p := U x (w (KSplit k 3 2)) in
    if Rltb (unif (w (KSplit (KSplit k 3 0) 2 1))) (accept (snd s) p) then (x, p) else s.
  Definition evaluated (s : vec * xr) : Prop := exists v e, snd s = U v e.

  Lemma rw_step_evaluated h w s k : evaluated s -> evaluated (rw_step h w s k).
  Proof. intros H. unfold rw_step. destruct (Rltb _ _); [eexists; eexists; reflexivity|exact H]. Qed.

  Lemma rw_step_drawn h s k : (forall z e, uniform_ok P unif (accept (snd s) (U (rw_prop h (fst s) z) e))) -> drawn P (rw_draws k) (fun w => rw_step h w s k) (rw_kernel P nrm U h s).
  Proof.
    intros Hu.
    pose (G1 := fun (x : vec) (w : key -> W) => (x, U x (w (KSplit k 3 2)))).
    assert (H1 : drawn P ([KSplit k 3 1] ++ [KSplit k 3 2])
                   (fun w => G1 (rw_prop h (fst s) (w (KSplit k 3 1))) w)
                   (fun phi => mean P (fun z => mean P (fun e => phi (rw_prop h (fst s) z, U (rw_prop h (fst s) z) e))))).
    { apply (drawn_bind P _ _ (fun w => rw_prop h (fst s) (w (KSplit k 3 1))) G1
               (fun phi => mean P (fun z => phi (rw_prop h (fst s) z))) (fun x phi => mean P (fun e => phi (x, U x e)))).
      - apply (drawn_key P HP (KSplit k 3 1) (rw_prop h (fst s))).
      - intros q [<-|[]] [H|[]]. injection H. discriminate.
      - intros w. apply (drawn_key P HP (KSplit k 3 2) (fun e => (rw_prop h (fst s) (w (KSplit k 3 1)), U (rw_prop h (fst s) (w (KSplit k 3 1))) e))). }
    pose (ku := KSplit (KSplit k 3 0) 2 1).
    apply (drawn_bind P ([KSplit k 3 1] ++ [KSplit k 3 2]) [ku] _
             (fun y w => if Rltb (unif (w ku)) (accept (snd s) (snd y)) then y else s) _
             (fun y phi => accept (snd s) (snd y) * phi y + (1 - accept (snd s) (snd y)) * phi s) H1).
    - unfold ku. intros q [<-|[<-|[]]] [H|[]]; apply (f_equal ksize) in H; cbn in H; lia.
    - intros w. apply (metropolis_drawn (T := vec * xr)). apply Hu.
  Qed.

  Definition rw_obs (s : mstate rw_core) : vec * xr := (rw_value (core s), rw_pot (core s)).

  Definition rw_up (w : key -> W) := rw_update (fun k i => nrm (w k) i) (fun v k => U v (w k)) (fun k => unif (w k)).

  Lemma rw_up_step w h s e : evaluated (rw_obs s) -> par e = h ->
    par (snd (rw_up w s e)) = h /\ rkey (snd (rw_up w s e)) = rw_next_key (rkey e)
    /\ iter (snd (rw_up w s e)) = S (iter e)
    /\ rw_obs (fst (rw_up w s e)) = rw_step h w (rw_obs s) (rkey e).
  Proof.
    intros (v0 & e0 & E) <-.
    assert (N : rw_pot (core s) <> NInf) by (change (snd (rw_obs s) <> NInf); rewrite E; apply HU).
    unfold rw_up, rw_update, mcmc_update, rw_proposal, metropolis_correct. cbn [rkey par iter core alpha].
    unfold rw_acceptance. cbn [core rw_pot]. rewrite accept_value; [|exact N|apply HU].
    unfold rw_step. cbn [fst snd rw_obs]. unfold rw_prop. cbn [xltb].
    destruct (Rltb _ _); cbn; repeat split; reflexivity.
  Qed.

  Lemma rw_fresh k q : In q (rw_draws k) -> derived (rw_next_key k) q -> False.
  Proof.
    unfold rw_next_key. intros [<-|[<-|[<-|[]]]] H.
    - apply (incomp_children k 3 0 3 1 (or_intror (O_S 0)) (KSplit k 3 1)); [|constructor].
      apply (derived_trans _ (KSplit (KSplit k 3 0) 2 0)); [repeat constructor|exact H].
    - apply (incomp_children k 3 0 3 2 (or_intror (O_S 1)) (KSplit k 3 2)); [|constructor].
      apply (derived_trans _ (KSplit (KSplit k 3 0) 2 0)); [repeat constructor|exact H].
    - apply derived_split_inv in H. lia.
  Qed.
  Lemma rw_draws_derived k q : In q (rw_draws k) -> derived k q.
  Proof. intros [<-|[<-|[<-|[]]]]; repeat constructor. Qed.

  (** all potentials of a run were evaluated *)
  Lemma rw_path_ok w h : forall n s e, evaluated (rw_obs s) -> par e = h ->
    map (fun i => rw_obs (fst (iterate (rw_up w) i (s, e)))) (seq 0 (S n))
    = path (rw_step h) rw_next_key w n (rw_obs s) (rkey e).
  Proof.
    intros n s e V I.
    apply (iterate_path w (rw_up w) rw_obs rkey (fun s e => evaluated (rw_obs s) /\ par e = h)); [|split; assumption].
    clear n s e V I. intros s e [V I]. destruct (rw_up_step w h s e V I) as (I' & E1 & _ & E2).
    repeat split; try assumption. rewrite E2. apply rw_step_evaluated, V.
  Qed.

  Lemma rw_up_iter w s e : iter (snd (rw_up w s e)) = S (iter e).
  Proof.
    unfold rw_up, rw_update, mcmc_update, rw_proposal, metropolis_correct. destruct (xltb _ _); reflexivity.
  Qed.

  Variable psamp : W -> vec.
  Definition rw_run (h : R) (st : start) (k : key) (n : nat) (w : key -> W) : list (mstate rw_core) :=
    mcmc_run (rw_up w) n (rw_begin (fun k => psamp (w k)) (fun v k => U v (w k)) st k h).

  Lemma rw_run_path h v k n w : map rw_obs (mcmc_run (rw_up w) n (rw_startup (fun v k => U v (w k)) v k h))
    = path (rw_step h) rw_next_key w (n - 1) (v, U v (w (KSplit k 2 1))) (KSplit k 2 0).
  Proof.
    rewrite mcmc_run_spec by (intros; apply rw_up_iter). rewrite map_map.
    cbn [rw_startup snd iter]. rewrite Nat.sub_0_r.
    unfold rw_startup. rewrite (rw_path_ok w h); [reflexivity| |reflexivity].
    exists v, (w (KSplit k 2 1)). reflexivity.
  Qed.

  Lemma rw_start_drawn (first : vec -> Prop) h v k n : first v ->
    walk_uniform nrm U (fun _ => sqrt h) first P unif accept (n - 1) -> drawn P ([KSplit k 2 1] ++ path_keys rw_next_key rw_draws (n - 1) (KSplit k 2 0))
    (fun w => map rw_obs (mcmc_run (rw_up w) n (rw_startup (fun v k => U v (w k)) v k h)))
    (fun phi => mean P (fun e => chain_mean (rw_kernel P nrm U h) (n - 1) (v, U v e) phi)).
  Proof.
    intros Hv Hu. eapply drawn_ext. { intros w. symmetry. apply rw_run_path. }
    apply (drawn_bind P [KSplit k 2 1] _ (fun w => w (KSplit k 2 1))
             (fun e w => path (rw_step h) rw_next_key w (n - 1) (v, U v e) (KSplit k 2 0))
             (fun phi => mean P phi) (fun e phi => chain_mean (rw_kernel P nrm U h) (n - 1) (v, U v e) phi)).
    - apply (drawn_key P HP (KSplit k 2 1) (fun x => x)).
    - intros q [<-|[]] H. apply path_keys_derived in H.
      + apply derived_split_inv in H. lia.
      + intros k'. unfold rw_next_key. repeat constructor.
      + apply rw_draws_derived.
    - intros w. apply (path_drawn_upto P HP (rw_step h) rw_next_key rw_draws (rw_kernel P nrm U h)
        (walk_reach nrm U (fun _ => sqrt h) first) (n - 1)) with (i := 0%nat); [| | | | | |lia].
      + intros i w' s k' H. unfold rw_step. destruct (Rltb _ _); [apply reach_moved|apply reach_kept]; exact H.
      + intros i s k' H Hi. apply rw_step_drawn. intros z e. exact (Hu i s z e H Hi).
      + intros k'. unfold rw_next_key. repeat constructor.
      + apply rw_fresh.
      + apply rw_draws_derived.
      + apply reach_first, Hv.
  Qed.
  Lemma rw_start_keys n k q : In q ([KSplit k 2 1] ++ path_keys rw_next_key rw_draws n (KSplit k 2 0)) -> derived k q.
  Proof.
    intros [<-|H]; [repeat constructor|]. apply (derived_trans _ (KSplit k 2 0)); [repeat constructor|].
    apply (path_keys_derived rw_next_key rw_draws) in H; [exact H| |apply rw_draws_derived].
    intros k'. unfold rw_next_key. repeat constructor.
  Qed.

  Lemma rw_run_drawn h st k n : walk_uniform nrm U (fun _ => sqrt h) (start_point psamp st) P unif accept (n - 1) -> exists ks, drawn P ks (fun w => map rw_obs (rw_run h st k n w))
    (fun phi => start_mean P psamp st (fun v => mean P (fun e => chain_mean (rw_kernel P nrm U h) (n - 1) (v, U v e) phi))).
  Proof.
    intros Hu. unfold rw_run, rw_begin. destruct st as [v| |]; cbn [initial_value fst snd start_mean].
    - eexists. apply (rw_start_drawn _ h v k n eq_refl Hu).
    - eexists. apply (drawn_bind P [KSplit k 2 1] ([KSplit (KSplit k 2 0) 2 1] ++ path_keys rw_next_key rw_draws (n - 1) (KSplit (KSplit k 2 0) 2 0)) (fun w => psamp (w (KSplit k 2 1)))
        (fun v w => map rw_obs (mcmc_run (rw_up w) n (rw_startup (fun v k => U v (w k)) v (KSplit k 2 0) h)))
        (fun phi => mean P (fun x => phi (psamp x)))
        (fun v phi => mean P (fun e => chain_mean (rw_kernel P nrm U h) (n - 1) (v, U v e) phi))).
      + apply (drawn_key P HP (KSplit k 2 1) psamp).
      + intros q [<-|[]] H. apply rw_start_keys in H. apply derived_split_inv in H. lia.
      + intros w. apply (rw_start_drawn _ h _ _ n (ex_intro _ _ eq_refl) Hu).
    - eexists. apply (rw_start_drawn _ h (fun _ => 0) k n eq_refl Hu).
  Qed.
End Metropolis.

(** uniform numbers that serve every pair of evaluations *)
Lemma uniform_everywhere {W E A} (P : law W) unif nrm (U : vec -> E -> A) sc first acc n :
  (forall v e v' e', uniform_ok P unif (acc (U v e) (U v' e'))) -> walk_uniform nrm U sc first P unif acc n.
Proof.
  intros H t s z e R _. revert z e. enough (exists v e, snd s = U v e) as (v & e0 & ->) by (intros; apply H).
  induction R as [x e _|t s _ IH|t s z e _ _ x]; [eexists; eexists; reflexivity|exact IH|eexists; eexists; reflexivity].
Qed.

(** * Invariance *)
Definition dec (A : Prop) : {A} + {~ A}.
Proof.
  assert (E : exists b : bool, if b then A else ~ A) by (destruct (classic A); [exists true|exists false]; assumption).
  pose proof (epsilon_spec (inhabits true) (fun b : bool => if b then A else ~ A) E) as H.
  destruct (epsilon _ _); [left|right]; exact H.
Qed.

Lemma mean_scal {A} (d : law A) c f : mean d (fun x => c * f x) = c * mean d f.
Proof.
  unfold mean. rewrite <- Rsum_scal. f_equal. apply map_ext. intros x. ring.
Qed.

Lemma mean_Rsum {A B} (d : law A) (f : A -> B -> R) l : mean d (fun x => Rsum (map (f x) l)) = Rsum (map (fun y => mean d (fun x => f x y)) l).
Proof.
  unfold mean. rewrite (Rsum_swap (fun y ap => snd ap * f (fst ap) y) l d).
  f_equal. apply map_ext. intros ap. rewrite Rsum_scal. reflexivity.
Qed.

Lemma antisym_sum {A} (D : A -> A -> R) l : (forall x y, D x y = - D y x) -> Rsum (map (fun x => Rsum (map (D x) l)) l) = 0.
Proof.
  intros H.
  assert (E : Rsum (map (fun x => Rsum (map (D x) l)) l) = - Rsum (map (fun x => Rsum (map (D x) l)) l)); [|lra].
  rewrite (Rsum_swap D l l) at 1.
  replace (- Rsum (map (fun x => Rsum (map (D x) l)) l)) with (-1 * Rsum (map (fun x => Rsum (map (D x) l)) l)) by ring.
  rewrite <- Rsum_scal. f_equal. apply map_ext. intros x. rewrite <- Rsum_scal. f_equal. apply map_ext.
  intros y. rewrite (H y x). ring.
Qed.

Lemma Rsum_single {A} (x : A) (f : A -> R) l : NoDup l -> (~ In x l -> f x = 0) ->
  Rsum (map (fun y => if dec (x = y) then f y else 0) l) = f x.
Proof.
  intros N. induction N as [|a l Ha N IH]; intros H; cbn.
  - symmetry. apply H. intros [].
  - destruct (dec (x = a)) as [<-|Ne].
    + enough (E : Rsum (map (fun y => if dec (x = y) then f y else 0) l) = 0) by (rewrite E; lra).
      rewrite (Rsum_ext _ (fun _ => 0 * 0)); [rewrite (Rsum_scal 0 (fun _ => 0)); lra|].
      intros y Hy. destruct (dec (x = y)) as [->|_]; [contradiction|lra].
    + rewrite IH; [lra|]. intros Hn. apply H. intros [E|Hi]; [congruence|contradiction].
Qed.

Lemma balance_sym p p' : p <> NInf -> p' <> NInf -> density p * accept p p' = density p' * accept p' p.
Proof.
  intros H H'. destruct p as [a| | |], p' as [b| | |]; cbn; try congruence; try lra.
  replace (a - b) with (- b + a) by lra. replace (b - a) with (- a + b) by lra. apply exp_min_balance.
Qed.

Section Invariance.
  Context {W Z A : Type}.
  Variable P : law W.
  Variable Q : law Z.
  Hypothesis HP : prob P.
  Hypothesis HQ : prob Q.
  Variable nrm : W -> nat -> R.
  Variable U : vec -> Z -> A.
  Variable acc : A -> A -> R.
  Variable g : A -> R.
  Variable sc : nat -> R.
  Notation K := (walk_kernel P Q nrm U acc sc).
  Definition shift (x : vec) (z : W) : vec := fun i => x i + sc i * nrm z i.

  Hypothesis HB : forall v e v' e', g (U v e) * acc (U v e) (U v' e') = g (U v' e') * acc (U v' e') (U v e).
  Hypothesis Hs : symmetric_steps P nrm.
  Variable S : list vec.
  Hypothesis HN : NoDup S.
  Hypothesis HS : forall x e, ~ In x S -> g (U x e) = 0.

  Notation against := (walk_target Q U g S).

  Section Phi.
    Variable phi : vec * A -> R.
    (** flow from [x] to [y], without the law of the proposal *)
    Definition flow (x y : vec) : R :=
      mean Q (fun e => mean Q (fun e' =>
        g (U x e) * acc (U x e) (U y e') * (phi (y, U y e') - phi (x, U x e)))).

    Lemma flow_antisym x y : flow x y = - flow y x.
    Proof.
      unfold flow. rewrite mean_swap.
      replace (- mean Q (fun e => mean Q (fun e' => g (U y e) * acc (U y e) (U x e') * (phi (x, U x e') - phi (y, U y e)))))
        with (-1 * mean Q (fun e => mean Q (fun e' => g (U y e) * acc (U y e) (U x e') * (phi (x, U x e') - phi (y, U y e))))) by ring.
      rewrite <- mean_scal. apply mean_fext. intros e. rewrite <- mean_scal. apply mean_fext. intros e'.
      rewrite HB. ring.
    Qed.

    Lemma flow_outside x y : ~ In y S -> flow x y = 0.
    Proof.
      intros H. unfold flow. rewrite <- (mean_const Q 0 HQ). apply mean_fext. intros e.
      rewrite <- (mean_const Q 0 HQ). apply mean_fext. intros e'.
      rewrite HB. rewrite HS by exact H. ring.
    Qed.

    Lemma kernel_diff x p : K (x, p) phi - phi (x, p)
      = mean P (fun z => mean Q (fun e' => let y := shift x z in
          acc p (U y e') * (phi (y, U y e') - phi (x, p)))).
    Proof.
      assert (E : K (x, p) phi = mean P (fun z => phi (x, p) + mean Q (fun e' => let y := shift x z in
          acc p (U y e') * (phi (y, U y e') - phi (x, p))))).
      { unfold walk_kernel. apply mean_fext. intros z.
        transitivity (mean Q (fun e' => phi (x, p) + 1 * (acc p (U (shift x z) e') * (phi (shift x z, U (shift x z) e') - phi (x, p))))).
        - apply mean_fext. intros e. cbv zeta. cbn [fst snd]. change (fun i : nat => x i + sc i * nrm z i) with (shift x z).
          set (y := shift x z). set (al := acc p (U y e)). clearbody al. set (f1 := phi (y, U y e)). set (f2 := phi (x, p)). clearbody f2. change (al * f1 + (1 - al) * f2 = f2 + 1 * (al * (f1 - f2))). ring.
        - rewrite (mean_affine Q (phi (x, p)) 1 _ HQ). cbv zeta. ring. }
      rewrite E, mean_plus, (mean_const P (phi (x, p)) HP). ring.
    Qed.

    (** probability of proposing [y] from [x] *)
    Definition q (x y : vec) : R := mean P (fun z => if dec (shift x z = y) then 1 else 0).
    Lemma q_sym x y : q x y = q y x.
    Proof.
      unfold q.
      pose proof (Hs (fun f => if dec ((fun i => x i + sc i * f i) = y) then 1 else 0)) as E.
      cbv beta in E. unfold shift. etransitivity; [exact E|]. apply mean_fext. intros z.
      destruct (dec _) as [D|D], (dec _) as [D'|D']; try reflexivity; exfalso.
      - apply D'. apply functional_extensionality. intros i. rewrite <- D. ring.
      - apply D. apply functional_extensionality. intros i. rewrite <- D'. ring.
    Qed.

    Lemma kernel_invariant : against (fun s => K s phi) = against phi.
    Proof.
      enough (E : against (fun s => K s phi) + (-1) * against phi = 0) by lra.
      unfold walk_target. rewrite <- Rsum_scal, <- Rsum_plus.
      rewrite (Rsum_ext _ (fun x => Rsum (map (fun y => q x y * flow x y) S))).
      { apply (antisym_sum (fun x y => q x y * flow x y)). intros x y. rewrite q_sym, flow_antisym. ring. }
      intros x _.
      rewrite <- mean_scal, <- mean_plus.
      rewrite (mean_fext Q _ (fun e => mean P (fun z => mean Q (fun e' =>
        g (U x e) * acc (U x e) (U (shift x z) e') * (phi (shift x z, U (shift x z) e') - phi (x, U x e)))))).
      2:{ intros e. replace (g (U x e) * K (x, U x e) phi + -1 * (g (U x e) * phi (x, U x e)))
            with (g (U x e) * (K (x, U x e) phi - phi (x, U x e))) by ring.
          rewrite kernel_diff, <- mean_scal. apply mean_fext. intros z. rewrite <- mean_scal. apply mean_fext. intros e'. cbv zeta. ring. }
      rewrite mean_swap.
      transitivity (mean P (fun z => Rsum (map (fun y => if dec (shift x z = y) then flow x y else 0) S))).
      { apply mean_fext. intros z. rewrite (Rsum_single (shift x z) (flow x) S HN); [reflexivity|].
        apply flow_outside. }
      rewrite (mean_Rsum P (fun z y => if dec (shift x z = y) then flow x y else 0)).
      apply Rsum_ext. intros y _. unfold q. rewrite Rmult_comm, <- mean_scal. apply mean_fext. intros z.
      destruct (dec _); ring.
    Qed.
  End Phi.

  Lemma kernel_const s c : K s (fun _ => c) = c.
  Proof.
    unfold walk_kernel. transitivity (mean P (fun _ : W => c)); [|apply mean_const, HP].
    apply mean_fext. intros z. transitivity (mean Q (fun _ : Z => c)); [|apply mean_const, HQ].
    apply mean_fext. intros e. cbv zeta. ring.
  Qed.
  Lemma kernel_ext s f f' : (forall y, f y = f' y) -> K s f = K s f'.
  Proof. intros E. unfold walk_kernel. apply mean_fext. intros z. apply mean_fext. intros e. cbv zeta. rewrite !E. reflexivity. Qed.
  Lemma kernel_scal s c f : K s (fun y => c * f y) = c * K s f.
  Proof.
    unfold walk_kernel. rewrite <- mean_scal. apply mean_fext. intros z. rewrite <- mean_scal. apply mean_fext.
    intros e. cbv zeta. ring.
  Qed.

  Lemma chain_const c : forall n s, chain_mean K n s (fun _ => c) = c.
  Proof. induction n as [|n IH]; intros s; cbn; [reflexivity|]. rewrite (kernel_ext s _ (fun _ => c)); [apply kernel_const|]. intros y. apply IH. Qed.
  Lemma chain_ext n : forall s f f', (forall l, f (s :: l) = f' (s :: l)) -> chain_mean K n s f = chain_mean K n s f'.
  Proof.
    induction n as [|n IH]; intros s f f' E; cbn; [apply E|]. apply kernel_ext. intros y. apply IH. intros l. apply E.
  Qed.
  Lemma chain_scal c n : forall s f, chain_mean K n s (fun l => c * f l) = c * chain_mean K n s f.
  Proof.
    induction n as [|n IH]; intros s f; cbn; [reflexivity|]. rewrite <- kernel_scal. apply kernel_ext. intros y. apply IH.
  Qed.

  Lemma chain_invariant phi d : forall t n, (t <= n)%nat ->
    against (fun s => chain_mean K n s (fun l => phi (nth t l d))) = against phi.
  Proof.
    induction t as [|t IH]; intros n L.
    - unfold walk_target. apply Rsum_ext. intros x _. apply mean_fext. intros e. f_equal.
      rewrite (chain_ext n _ _ (fun _ => phi (x, U x e))); [apply chain_const|]. intros l. reflexivity.
    - destruct n as [|n]; [lia|]. cbn [chain_mean].
      etransitivity; [|apply (IH n); lia]. exact (kernel_invariant (fun y => chain_mean K n y (fun l => phi (nth t l d)))).
  Qed.
End Invariance.

Lemma mean_map_scaled {A B} (a : A) (c : R) (e : law B) (f : A * B -> R) :
  Rsum (map (fun ap => snd ap * f (fst ap)) (map (fun bq => ((a, fst bq), c * snd bq)) e)) = c * mean e (fun b => f (a, b)).
Proof.
  rewrite map_map. unfold mean. rewrite <- Rsum_scal. f_equal. apply map_ext. intros bq. cbn. ring.
Qed.
Lemma Rsum_app l m : Rsum (l ++ m) = Rsum l + Rsum m.
Proof. induction l as [|x l IH]; cbn; [lra|]. rewrite IH. lra. Qed.
Lemma mean_pair {A B} (d : law A) (e : law B) f : mean (pair_law d e) f = mean d (fun a => mean e (fun b => f (a, b))).
Proof.
  unfold mean at 1, pair_law. induction d as [|[a p] d IH]; [reflexivity|].
  cbn [flat_map map]. rewrite map_app, Rsum_app, IH, mean_map_scaled. reflexivity.
Qed.
Lemma pair_prob {A B} (d : law A) (e : law B) : prob d -> prob e -> prob (pair_law d e).
Proof.
  intros H1 H2. unfold prob.
  replace (map snd (pair_law d e)) with (map (fun ap => snd ap * 1) (pair_law d e)).
  - change (mean (pair_law d e) (fun _ => 1) = 1). rewrite mean_pair.
    rewrite (mean_fext d _ (fun _ => 1)); [apply mean_const, H1|]. intros a. apply mean_const, H2.
  - apply map_ext. intros ap. ring.
Qed.

(** * ABC *)
Section Abc.
  Context {W Data : Type}.
  Variable P : law W.
  Hypothesis HP : prob P.
  Variable unif : W -> R.
  Variable nrm : W -> nat -> R.
  Variable pr : vec -> W -> xr.
  Variable lik : vec -> W -> Data.
  Variable dist : Data -> xr.
  Variable thr : xr.
  Hypothesis HU : forall v e, pr v e <> NInf.
  Variable psamp : W -> vec.
  Variable par0 : abc_par.
  Hypothesis Hthr : threshold par0 = thr.
  Notation h := (stepsize par0).
  Notation st := (vec * (xr * Data))%type.

  Lemma abc_accept_value p p' d' : p <> NInf -> p' <> NInf ->
    clean_alpha (xmin (Fin 1) (xmul (xexp (xadd (xopp p') p)) (xbool (xltb (dist d') thr))))
    = Fin (accept p p' * inside dist thr d').
  Proof.
    intros H H'. unfold inside. destruct (xltb (dist d') thr); unfold xbool.
    - rewrite Rmult_1_r, <- accept_value by assumption. f_equal. f_equal.
      destruct p as [a| | |], p' as [b| | |]; try congruence; cbn; try reflexivity; unfold Rltb;
        try (f_equal; ring); destruct (Rlt_dec 0 1); try lra; try reflexivity.
    - rewrite Rmult_0_r. destruct p as [a| | |], p' as [b| | |]; try congruence; cbn; try reflexivity.
      + unfold Rleb. rewrite Rmult_0_r. destruct (Rle_dec 1 0); [lra|reflexivity].
      + unfold Rleb. rewrite Rmult_0_r. destruct (Rle_dec 1 0); [lra|reflexivity].
      + unfold Rltb. destruct (Rlt_dec 0 0); [lra|]. destruct (Req_EM_T 0 0); [reflexivity|lra].
  Qed.

  Definition abc_prop (x : vec) (z : W) : vec := fun i => x i + sqrt (h i) * nrm z i.
  Definition abc_step (w : key -> W) (s : st) (k : key) : st :=
    let k := KSplit k 2 0 in
    let x := abc_prop (fst s) (w (KSplit k 4 1)) in
    let a := (pr x (w (KSplit k 4 2)), lik x (w (KSplit k 4 3))) in
    if Rltb (unif (w (KSplit (KSplit k 4 0) 2 1))) (abc_accept dist thr (snd s) a) then (x, a) else s.
  Definition abc_evaluated (s : st) : Prop := exists v e, fst (snd s) = pr v e.

  Lemma abc_step_evaluated w s k : abc_evaluated s -> abc_evaluated (abc_step w s k).
  Proof. intros H. unfold abc_step. destruct (Rltb _ _); [eexists; eexists; reflexivity|exact H]. Qed.

  Lemma abc_step_drawn s k : (forall z e, uniform_ok P unif (abc_accept dist thr (snd s) (abc_eval pr lik (abc_prop (fst s) z) e))) -> drawn P (abc_draws k) (fun w => abc_step w s k) (abc_kernel P nrm pr lik dist thr h s).
  Proof.
    intros Hu. set (k' := KSplit k 2 0).
    pose (G1 := fun (x : vec) (w : key -> W) => (x, (pr x (w (KSplit k' 4 2)), lik x (w (KSplit k' 4 3))))).
    assert (H2 : forall x, drawn P ([KSplit k' 4 2] ++ [KSplit k' 4 3]) (G1 x)
                   (fun phi => mean P (fun e => mean P (fun e' => phi (x, (pr x e, lik x e')))))).
    { intros x.
      apply (drawn_bind P _ _ (fun w => w (KSplit k' 4 2)) (fun e w => (x, (pr x e, lik x (w (KSplit k' 4 3)))))
               (fun phi => mean P phi) (fun e phi => mean P (fun e' => phi (x, (pr x e, lik x e'))))).
      - apply (drawn_key P HP (KSplit k' 4 2) (fun e => e)).
      - intros q [<-|[]] [H|[]]. injection H. discriminate.
      - intros w. apply (drawn_key P HP (KSplit k' 4 3) (fun e' => (x, (pr x (w (KSplit k' 4 2)), lik x e')))). }
    assert (H1 : drawn P ([KSplit k' 4 1] ++ ([KSplit k' 4 2] ++ [KSplit k' 4 3]))
                   (fun w => G1 (abc_prop (fst s) (w (KSplit k' 4 1))) w)
                   (fun phi => mean P (fun z => mean P (fun e => mean P (fun e' =>
                      phi (abc_prop (fst s) z, (pr (abc_prop (fst s) z) e, lik (abc_prop (fst s) z) e'))))))).
    { apply (drawn_bind P _ _ (fun w => abc_prop (fst s) (w (KSplit k' 4 1))) G1
               (fun phi => mean P (fun z => phi (abc_prop (fst s) z)))
               (fun x phi => mean P (fun e => mean P (fun e' => phi (x, (pr x e, lik x e')))))).
      - apply (drawn_key P HP (KSplit k' 4 1) (abc_prop (fst s))).
      - intros q [<-|[]] [H|[H|[]]]; injection H; discriminate.
      - intros w. apply H2. }
    pose (ku := KSplit (KSplit k' 4 0) 2 1).
    eapply drawn_law.
    2:{ apply (drawn_bind P ([KSplit k' 4 1] ++ ([KSplit k' 4 2] ++ [KSplit k' 4 3])) [ku] _
             (fun y w => if Rltb (unif (w ku)) (abc_accept dist thr (snd s) (snd y)) then y else s) _
             (fun y phi => abc_accept dist thr (snd s) (snd y) * phi y + (1 - abc_accept dist thr (snd s) (snd y)) * phi s) H1).
        - unfold ku. intros q [<-|[<-|[<-|[]]]] [H|[]]; apply (f_equal ksize) in H; cbn in H; lia.
        - intros w. apply (metropolis_drawn P HP unif (T := st)). apply (Hu (w (KSplit k' 4 1)) (w (KSplit k' 4 2), w (KSplit k' 4 3))). }
    intros phi. cbv beta. unfold abc_kernel, walk_kernel. apply mean_fext. intros z. rewrite mean_pair. reflexivity.
  Qed.

  Definition abc_obs (s : mstate (@abc_core Data)) : st := (a_value (core s), (a_prior (core s), a_data (core s))).
  Definition abc_up (w : key -> W) := abc_update (fun k i => nrm (w k) i) (fun v k => pr v (w k)) (fun v k => lik v (w k)) dist
    (fun k => unif (w k)).

  Lemma abc_up_step w s e : abc_evaluated (abc_obs s) -> par e = par0 ->
    par (snd (abc_up w s e)) = par0 /\ rkey (snd (abc_up w s e)) = abc_next_key (rkey e)
    /\ abc_obs (fst (abc_up w s e)) = abc_step w (abc_obs s) (rkey e).
  Proof.
    intros (v0 & e0 & E0) E.
    assert (N : a_prior (core s) <> NInf) by (change (fst (snd (abc_obs s)) <> NInf); rewrite E0; apply HU).
    unfold abc_up, abc_update, mcmc_update, abc_always, abc_proposal, metropolis_correct. cbn [rkey par iter core alpha].
    unfold abc_acceptance. cbn [core a_prior a_dist par threshold]. rewrite E, Hthr, abc_accept_value; [|exact N|apply HU].
    unfold abc_step. cbn [fst snd abc_obs]. unfold abc_prop, abc_accept. cbn [xltb fst snd].
    destruct (Rltb _ _); cbn; rewrite ?E; repeat split; try reflexivity; assumption.
  Qed.
  Lemma abc_up_iter w s e : iter (snd (abc_up w s e)) = S (iter e).
  Proof.
    unfold abc_up, abc_update, mcmc_update, abc_always, abc_proposal, metropolis_correct. destruct (xltb _ _); reflexivity.
  Qed.

  Lemma abc_draws_derived k q : In q (abc_draws k) -> derived k q.
  Proof. intros [<-|[<-|[<-|[<-|[]]]]]; repeat constructor. Qed.
  Lemma abc_next_derived k : derived k (abc_next_key k).
  Proof. unfold abc_next_key. repeat constructor. Qed.
  Lemma abc_fresh k q : In q (abc_draws k) -> derived (abc_next_key k) q -> False.
  Proof.
    unfold abc_next_key, abc_draws. set (k' := KSplit k 2 0).
    assert (D : derived (KSplit k' 4 0) (KSplit (KSplit k' 4 0) 2 0)) by repeat constructor.
    intros [<-|[<-|[<-|[<-|[]]]]] H.
    1-3: apply (derived_trans _ _ _ D) in H; apply derived_split_inv in H; lia.
    apply derived_split_inv in H. lia.
  Qed.

  Lemma abc_path_ok w : forall n s e, abc_evaluated (abc_obs s) -> par e = par0 ->
    map (fun i => abc_obs (fst (iterate (abc_up w) i (s, e)))) (seq 0 (S n))
    = path abc_step abc_next_key w n (abc_obs s) (rkey e).
  Proof.
    intros n s e V I.
    apply (iterate_path w (abc_up w) abc_obs rkey (fun s e => abc_evaluated (abc_obs s) /\ par e = par0)); [|split; assumption].
    clear n s e V I. intros s e [V I]. destruct (abc_up_step w s e V I) as (I' & E1 & E2).
    repeat split; try assumption. rewrite E2. apply abc_step_evaluated, V.
  Qed.

  Definition abc_run (s0 : start) (k : key) (n : nat) (w : key -> W) : list (mstate abc_core) :=
    mcmc_run (abc_up w) n (abc_begin (fun k => psamp (w k)) (fun v k => pr v (w k)) (fun v k => lik v (w k)) dist s0 k par0).

  Lemma abc_run_path v k n w :
    map abc_obs (abc_run (Given v) k n w)
    = path abc_step abc_next_key w (n - 1) (v, (pr v (w (KSplit k 2 1)), lik v (w (KSplit (KSplit k 2 0) 2 1))))
        (KSplit (KSplit k 2 0) 2 0).
  Proof.
    unfold abc_run. rewrite mcmc_run_spec by (intros; apply abc_up_iter). rewrite map_map.
    unfold abc_begin. cbn [initial_value fst snd iter]. rewrite Nat.sub_0_r.
    rewrite abc_path_ok; [reflexivity| |reflexivity].
    exists v, (w (KSplit k 2 1)). reflexivity.
  Qed.

  Definition abc_start_keys (n : nat) (k : key) : list key :=
    ([KSplit k 2 1] ++ [KSplit (KSplit k 2 0) 2 1]) ++ path_keys abc_next_key abc_draws (n - 1) (KSplit (KSplit k 2 0) 2 0).
  Lemma abc_start_keys_derived n k q : In q (abc_start_keys n k) -> derived k q.
  Proof.
    unfold abc_start_keys. intros [<-|[<-|H]]; [repeat constructor|repeat constructor|].
    apply (derived_trans _ (KSplit (KSplit k 2 0) 2 0)); [repeat constructor|].
    apply (path_keys_derived abc_next_key abc_draws) in H; [exact H|apply abc_next_derived|apply abc_draws_derived].
  Qed.

  Lemma abc_start_drawn (first : vec -> Prop) v k n : first v ->
    walk_uniform nrm (abc_eval pr lik) (fun i => sqrt (h i)) first P unif (abc_accept dist thr) (n - 1) -> drawn P (abc_start_keys n k) (fun w => map abc_obs (abc_run (Given v) k n w))
    (fun phi => mean (pair_law P P) (fun e => chain_mean (abc_kernel P nrm pr lik dist thr h) (n - 1) (v, abc_eval pr lik v e) phi)).
  Proof.
    intros Hv Hu. eapply drawn_ext. { intros w. symmetry. apply abc_run_path. }
    apply (drawn_bind P ([KSplit k 2 1] ++ [KSplit (KSplit k 2 0) 2 1]) _
             (fun w => (w (KSplit k 2 1), w (KSplit (KSplit k 2 0) 2 1)))
             (fun e w => path abc_step abc_next_key w (n - 1) (v, abc_eval pr lik v e) (KSplit (KSplit k 2 0) 2 0))
             (mean (pair_law P P)) (fun e phi => chain_mean (abc_kernel P nrm pr lik dist thr h) (n - 1) (v, abc_eval pr lik v e) phi)).
    - eapply drawn_law.
      2:{ apply (drawn_bind P [KSplit k 2 1] [KSplit (KSplit k 2 0) 2 1] (fun w => w (KSplit k 2 1))
                   (fun e w => (e, w (KSplit (KSplit k 2 0) 2 1))) (fun phi => mean P phi) (fun e phi => mean P (fun e' => phi (e, e')))).
          - apply (drawn_key P HP (KSplit k 2 1) (fun e => e)).
          - intros q [<-|[]] [H|[]]. apply (f_equal ksize) in H. cbn in H. lia.
          - intros w. apply (drawn_key P HP (KSplit (KSplit k 2 0) 2 1) (fun e' => (w (KSplit k 2 1), e'))). }
      intros phi. cbv beta. symmetry. apply mean_pair.
    - intros q Hq H.
      apply (path_keys_derived abc_next_key abc_draws abc_next_derived abc_draws_derived) in H.
      destruct Hq as [<-|[<-|[]]].
      + apply (derived_trans (KSplit k 2 0)) in H; [|repeat constructor]. apply derived_split_inv in H. lia.
      + apply derived_split_inv in H. lia.
    - intros w. apply (path_drawn_upto P HP abc_step abc_next_key abc_draws (abc_kernel P nrm pr lik dist thr h)
        (walk_reach nrm (abc_eval pr lik) (fun i => sqrt (h i)) first) (n - 1)) with (i := 0%nat); [| | | | | |lia].
      + intros i w' s k' H. unfold abc_step. destruct (Rltb _ _); [|apply reach_kept, H].
        apply (reach_moved nrm (abc_eval pr lik) (fun i => sqrt (h i)) first i s (w' (KSplit (KSplit k' 2 0) 4 1))
                 (w' (KSplit (KSplit k' 2 0) 4 2), w' (KSplit (KSplit k' 2 0) 4 3))). exact H.
      + intros i s k' H Hi. apply abc_step_drawn. intros z e. exact (Hu i s z e H Hi).
      + apply abc_next_derived.
      + apply abc_fresh.
      + apply abc_draws_derived.
      + apply reach_first, Hv.
  Qed.

  Lemma abc_run_drawn s0 k n :
    walk_uniform nrm (abc_eval pr lik) (fun i => sqrt (h i)) (start_point psamp s0) P unif (abc_accept dist thr) (n - 1) -> exists ks, drawn P ks (fun w => map abc_obs (abc_run s0 k n w))
    (fun phi => start_mean P psamp s0 (fun v => mean (pair_law P P) (fun e =>
       chain_mean (abc_kernel P nrm pr lik dist thr h) (n - 1) (v, abc_eval pr lik v e) phi))).
  Proof.
    intros Hu. destruct s0 as [v| |]; cbn [start_mean].
    - eexists. apply (abc_start_drawn _ v k n eq_refl Hu).
    - eexists. apply (drawn_bind P [KSplit k 2 1] (abc_start_keys n (KSplit k 2 0)) (fun w => psamp (w (KSplit k 2 1)))
        (fun v w => map abc_obs (abc_run (Given v) (KSplit k 2 0) n w))
        (fun phi => mean P (fun x => phi (psamp x)))
        (fun v phi => mean (pair_law P P) (fun e =>
           chain_mean (abc_kernel P nrm pr lik dist thr h) (n - 1) (v, abc_eval pr lik v e) phi))).
      + apply (drawn_key P HP (KSplit k 2 1) psamp).
      + intros q [<-|[]] H. apply abc_start_keys_derived in H. apply derived_split_inv in H. lia.
      + intros w. apply (abc_start_drawn _ _ _ n (ex_intro _ _ eq_refl) Hu).
    - eexists. apply (abc_start_drawn _ (fun _ => 0) k n eq_refl Hu).
  Qed.

  Lemma abc_uniform : (forall v e v' e', uniform_ok P unif (accept (pr v e) (pr v' e'))) -> uniform_ok P unif 0 ->
    forall v e v' e', uniform_ok P unif (abc_accept dist thr (abc_eval pr lik v e) (abc_eval pr lik v' e')).
  Proof.
    intros Hu Hu0 v e v' e'. unfold abc_accept, inside, abc_eval. cbn [fst snd].
    destruct (xltb _ _); [rewrite Rmult_1_r; apply Hu|rewrite Rmult_0_r; exact Hu0].
  Qed.

  Lemma abc_balance v e v' e' :
    abc_density dist thr (abc_eval pr lik v e) * abc_accept dist thr (abc_eval pr lik v e) (abc_eval pr lik v' e')
    = abc_density dist thr (abc_eval pr lik v' e') * abc_accept dist thr (abc_eval pr lik v' e') (abc_eval pr lik v e).
  Proof.
    unfold abc_density, abc_accept, abc_eval. cbn [fst snd].
    pose proof (balance_sym (pr v (fst e)) (pr v' (fst e')) (HU _ _) (HU _ _)) as B.
    transitivity (density (pr v (fst e)) * accept (pr v (fst e)) (pr v' (fst e')) * (inside dist thr (lik v (snd e)) * inside dist thr (lik v' (snd e')))); [ring|].
    rewrite B. ring.
  Qed.
End Abc.
