(** Proofs about whole SMC runs: consistency of the stored potentials,
    normalising constants, temperatures, keys. *)
From Coq Require Import Reals List Bool Arith Lia Lra.
From Verif Require Import XR Keys LoopModel LoopSpec LoopProofs McmcModel McmcSpec McmcProofs
  WeightsModel WeightsSpec WeightsProofs BisectModel BisectProofs BisectProps SmcModel SmcSpec SmcProofs.
Import ListNotations.
Open Scope R_scope.

(** * Potentials *)
Lemma tpot_finite_prior t a b : 0 < t -> (finite a \/ a = PInf) -> (finite b \/ b = PInf) ->
  finite (xadd a (xmul (Fin t) b)) -> finite a.
Proof.
  intros Ht [[r ->]| ->] Hb [x E]; [exists r; auto|]. exfalso.
  destruct Hb as [[s ->]| ->]; cbn in E; [discriminate|].
  destruct (Rlt_dec 0 t); [discriminate|lra].
Qed.

Lemma recover_lik t a b : 0 < t -> finite a -> (finite b \/ b = PInf) ->
  xdiv (xsub (xadd a (xmul (Fin t) b)) a) t = b.
Proof.
  intros Ht [r ->] [[s ->]| ->]; cbn.
  - destruct (Req_EM_T t 0); [lra|]. f_equal. field. lra.
  - destruct (Rlt_dec 0 t); [|lra]. cbn. destruct (Rlt_dec t 0); [lra|reflexivity].
Qed.

Section Consistent.
  Variable prior lik : vec -> key -> xr.
  Variable categorical : key -> list xr -> nat -> list nat.
  Variable inner : R -> R -> key -> vec -> (vec * xr * xr) * key.
  Variable next : ensemble -> nat -> R.
  Variable thr : R.
  Hypothesis cat_ok : categorical_ok categorical.
  Hypothesis prior_ok : potential_ok prior.
  Hypothesis lik_ok : potential_ok lik.
  Hypothesis in_ok : inner_ok prior lik inner.

  Notation update := (smc_update prior categorical inner next thr).

  Definition good (E : ensemble) : Prop :=
    forall p, In p E -> consistent prior lik p /\ finite (p_prior p).

  Lemma forward_good t step k p : 0 < t -> (exists k, finite (prior (p_value p) k)) ->
    let q := forward_proposal prior inner t step k p in
    (forall k', p_prior q = prior (p_value q) k' /\ p_lik q = lik (p_value q) k')
    /\ finite (p_prior q).
  Proof.
    intros Ht [k0 Hp]. unfold forward_proposal.
    pose proof (in_ok t step k (p_value p) Ht) as I.
    destruct (inner t step k (p_value p)) as [[[v pot] al] fk]. destruct I as [Ipot Imove].
    cbn.
    destruct (prior_ok v) as (a & Ha & Ea). destruct (lik_ok v) as (b & Hb & Eb).
    assert (Fa : finite a).
    { destruct Imove as [Fp|Ev].
      - apply (tpot_finite_prior t a b Ht Ha Hb). rewrite (Ipot fk) in Fp. unfold tpot in Fp.
        rewrite Ea, Eb in Fp. exact Fp.
      - subst v. rewrite Ea in Hp. exact Hp. }
    split.
    - intros k'. rewrite !Ea, Eb. split; [reflexivity|].
      rewrite (Ipot fk). unfold tpot. rewrite Ea, Eb. apply recover_lik; auto.
    - rewrite Ea. exact Fa.
  Qed.

  Lemma update_good E e : E <> [] -> 0 < p_temp (first E) -> good E -> good (fst (update E e)).
  Proof.
    intros Hne Ht G p Hp.
    apply In_nth with (d := dpart) in Hp. destruct Hp as (i & Hi & <-).
    rewrite (update_length _ _ _ _ _ cat_ok) in Hi. unfold smc_update. cbn [fst].
    rewrite nth_adapt; [|rewrite moved_length, resampled_length by auto; reflexivity | rewrite moved_length by auto; exact Hi].
    rewrite (nth_moved _ _ _ _ cat_ok) by exact Hi.
    set (r := nth i (resampled_ensemble categorical thr E e) dpart).
    assert (Hr : In r (resampled_ensemble categorical thr E e)).
    { apply nth_In. rewrite resampled_length by auto. exact Hi. }
    destruct (resampled_in _ _ cat_ok E e r Hr) as (q & Hq & Ev & _).
    destruct (G q Hq) as [Cq Fq].
    assert (Hpr : exists k, finite (prior (p_value r) k)).
    { exists (KRoot 0). rewrite Ev. destruct (Cq (KRoot 0)) as (<- & _). exact Fq. }
    destruct (forward_good (p_temp (first E)) (s_step e) (KSplit (s_key e) (length E + 2) i) r Ht Hpr) as [F1 F2].
    split; [|exact F2].
    intros k. cbn [p_prior p_lik p_pot p_value p_temp].
    destruct (F1 k) as [A B]. split; [exact A|]. split; [exact B|]. rewrite <- A, <- B. reflexivity.
  Qed.

  Lemma iterate_good n c : fst c <> [] -> good (fst c) ->
    (forall j, (j < n)%nat -> 0 < p_temp (first (fst (iterate update j c)))) ->
    good (fst (iterate update n c)).
  Proof.
    intros Hne G. induction n as [|n IH]; intros Ht; [exact G|].
    cbn [iterate]. apply update_good.
    - apply iterate_nonempty; auto.
    - apply Ht. lia.
    - apply IH. intros j Hj. apply Ht. lia.
  Qed.

  Lemma startup_good gprior glik vs k st :
    (forall v, In v vs -> exists k, finite (prior v k)) ->
    good (fst (smc_startup prior lik gprior glik next vs k st)).
  Proof.
    intros Hv p Hp.
    pose proof (startup_temp _ _ _ _ _ _ _ _ _ Hp) as Tp.
    apply In_nth with (d := dpart) in Hp. destruct Hp as (i & Hi & <-).
    rewrite startup_length in Hi. rewrite nth_startup in * by exact Hi.
    cbn [p_temp] in Tp. unfold consistent.
    cbn [p_prior p_lik p_pot p_value p_temp]. rewrite Tp.
    rewrite nth_prestart by exact Hi. cbn [p_prior p_lik p_pot p_value p_temp].
    set (v := nth i vs (fun _ => 0)).
    destruct (prior_ok v) as (a & Ha & Ea). destruct (lik_ok v) as (b & Hb & Eb).
    split.
    - intros k'. unfold tpot. rewrite !Ea, !Eb. auto.
    - rewrite Ea. destruct (Hv v (nth_In _ _ Hi)) as (k0 & F). rewrite Ea in F. exact F.
  Qed.
End Consistent.

Lemma rw_update_core normal potential uniform s e :
  let k := rkey e in
  let v := fun i => rw_value (core s) i + sqrt (par e) * normal (KSplit k 3 1) i in
  let u := potential v (KSplit k 3 2) in
  core (fst (rw_update normal potential uniform s e))
  = if xltb (Fin (uniform (KSplit (KSplit k 3 0) 2 1)))
            (clean_alpha (xmin (Fin 1) (xexp (xadd (xopp u) (rw_pot (core s))))))
    then RW v u (rw_step (core s)) else core s.
Proof.
  cbv zeta. unfold rw_update, mcmc_update, rw_proposal, metropolis_correct, rw_acceptance.
  cbn [iter rkey par core alpha rw_pot]. destruct (xltb _ _); reflexivity.
Qed.

(** RandomWalk is an admissible inner sampler. *)
Lemma rw_inner_ok normal uniform prior lik steps :
  (forall k, 0 <= uniform k < 1) -> potential_ok prior -> potential_ok lik ->
  inner_ok prior lik (rw_inner normal uniform prior lik steps).
Proof.
  intros Hu Hp Hl t step k v Ht.
  unfold rw_inner. cbv zeta.
  set (pt := tpot prior lik t). set (init := rw_startup pt v k step).
  set (c := iterate (rw_update normal pt uniform) steps init).
  assert (Cl : forall w k1 k2, pt w k1 = pt w k2).
  { intros w k1 k2. unfold pt, tpot. destruct (Hp w) as (a & _ & Ea), (Hl w) as (b & _ & Eb).
    rewrite !Ea, !Eb. reflexivity. }
  assert (Cases : forall w k1, finite (pt w k1) \/ pt w k1 = PInf).
  { intros w k1. unfold pt, tpot. destruct (Hp w) as (a & Ha & Ea), (Hl w) as (b & Hb & Eb).
    rewrite !Ea, !Eb. destruct Ha as [[r ->]| ->], Hb as [[s ->]| ->]; cbn;
      try destruct (Rlt_dec 0 t); try lra; auto; left; eexists; reflexivity. }
  assert (Inv : forall m, let s := core (fst (iterate (rw_update normal pt uniform) m init)) in
             (forall k', rw_pot s = pt (rw_value s) k') /\ (finite (rw_pot s) \/ rw_value s = v)).
  { induction m as [|m IH]; cbv zeta.
    - cbn. split; [intros; apply Cl | right; reflexivity].
    - cbn [iterate]. set (cm := iterate (rw_update normal pt uniform) m init) in *.
      destruct IH as [IH1 IH2].
      rewrite (rw_update_core normal pt uniform (fst cm) (snd cm)).
      set (w := fun i => rw_value (core (fst cm)) i + _).
      destruct (xltb _ _) eqn:X.
      + cbn [rw_pot rw_value]. split; [intros k'; apply Cl|]. left.
        destruct (Cases w (KSplit (rkey (snd cm)) 3 2)) as [F|F]; [exact F|].
        exfalso. revert X. rewrite F. pose proof (Hu (KSplit (KSplit (rkey (snd cm)) 3 0) 2 1)) as U.
        destruct (Cases (rw_value (core (fst cm))) (KRoot 0)) as [[r Fr]|Fr]; rewrite (IH1 (KRoot 0)), Fr; cbn.
        * unfold Rleb. destruct (Rle_dec 1 0); [lra|]. cbn. unfold Rltb.
          destruct (Rlt_dec _ 0) as [L|L]; [lra|discriminate].
        * unfold Rltb. destruct (Rlt_dec _ 0) as [L|L]; [lra|discriminate].
      + auto. }
  destruct (Inv steps) as [I1 I2]. fold c in I1, I2. auto.
Qed.
