(** C127: the default step size of ABC-SMC. *)
From Coq Require Import Reals List Bool Arith Lia Lra.
From Verif Require Import XR Keys LoopModel LoopSpec LoopProofs LoopProps McmcModel McmcSpec McmcProofs
  WeightsModel WeightsSpec WeightsProofs WeightsProps SmcModel SmcSpec SmcProps AbcModel AbcSpec AbcProofs AbcRun AbcProps
  AbcStepModel AbcStepSpec AbcStepProofs.
Import ListNotations.
Open Scope R_scope.

(** In every ensemble of every run, with any inner sampler, the step size of a
    coordinate is 2.38^2 / d times the variance of that coordinate over all
    particles; it is positive exactly when two particles differ there.
    Missing: that only particles with weight count (refuted below). *)
Theorem C127_stepsize_partial :
  forall (Data : Type) d categorical inner next_threshold rthr dflt
         prior_potential (likelihood_sample : vec -> key -> Data) distance thr0 vs k st m,
  categorical_ok categorical -> (2 <= length vs)%nat -> (1 <= d)%nat ->
  let c := iterate (a_update categorical inner (adapt_stepsize_scaled_diag_cov d) next_threshold rthr dflt) m
             (a_startup (adapt_stepsize_scaled_diag_cov d) next_threshold prior_potential likelihood_sample distance thr0 vs k st) in
  length (fst c) = length vs /\
  forall i, ae_step (snd c) i = 2.38 ^ 2 / INR d * pair_variance (coordinate i (fst c))
    /\ 0 <= ae_step (snd c) i
    /\ (0 < ae_step (snd c) i <-> exists p q, In p (fst c) /\ In q (fst c) /\ a_value (q_core p) i <> a_value (q_core q) i).
Proof.
  intros Data d cat inner nt rthr dflt pp ls dist thr0 vs k st m Ok Hv Hd c.
  assert (L : length (fst c) = length vs).
  { unfold c. induction m as [|m IH]; [apply a_startup_length|]. cbn [iterate].
    rewrite (a_update_length cat inner (adapt_stepsize_scaled_diag_cov d) nt rthr dflt Ok). exact IH. }
  split; [exact L|]. intros i.
  assert (E : ae_step (snd c) i = 2.38 ^ 2 / INR d * pair_variance (coordinate i (fst c))).
  { assert (S : exists s, ae_step (snd c) = adapt_stepsize_scaled_diag_cov d (fst c) s).
    { exists st. unfold c. destruct m as [|m]; reflexivity. }
    destruct S as [s ->]. unfold adapt_stepsize_scaled_diag_cov.
    rewrite jcov_pairs by (rewrite map_length; lia). unfold coordinate, Rdiv. ring. }
  assert (K : 0 < 2.38 ^ 2 / INR d).
  { apply Rmult_lt_0_compat; [apply pow_lt; lra|]. apply Rinv_0_lt_compat, lt_0_INR. lia. }
  split; [exact E|]. split.
  - rewrite E. apply Rmult_le_pos; [lra|apply pair_variance_nonneg].
  - rewrite E. transitivity (0 < pair_variance (coordinate i (fst c))).
    + split; intros H; [|apply Rmult_lt_0_compat; assumption].
      apply Rmult_lt_reg_l with (2.38 ^ 2 / INR d); [exact K|]. lra.
    + rewrite pair_variance_pos. unfold coordinate. split.
      * intros (x & y & Hx & Hy & N). apply in_map_iff in Hx, Hy. destruct Hx as (p & <- & Hp), Hy as (q & <- & Hq).
        exists p, q. auto.
      * intros (p & q & Hp & Hq & N). exists (a_value (q_core p) i), (a_value (q_core q) i).
        repeat split; auto; apply in_map_iff; eauto.
Qed.
Print Assumptions C127_stepsize_partial.

(** The unit of each parameter does not matter: if the scenario is written in
    other units [a v + b], a default run on the transformed initial values with
    the same key is the transformed run, particle by particle, with the same
    distances, weights and thresholds. *)
Theorem C127_units :
  forall (Data : Type) d categorical normal uniform steps (next_threshold : aensemble (Data := Data) -> nat -> xr) rthr
         prior prior' (lik lik' : vec -> key -> Data) distance dflt (a b : nat -> R) thr0 vs k m,
  (forall i, 0 < a i) ->
  (forall v k, prior' (units a b v) k = prior v k) -> (forall v k, lik' (units a b v) k = lik v k) ->
  ((exists retain, next_threshold = next_threshold_adaptive retain) \/ (exists l, next_threshold = next_threshold_scheduled l)) ->
  let r := iterate (default_update d categorical normal uniform steps next_threshold rthr prior lik distance dflt) m
             (default_startup d next_threshold prior lik distance thr0 vs k) in
  let r' := iterate (default_update d categorical normal uniform steps next_threshold rthr prior' lik' distance (part_units a b dflt)) m
             (default_startup d next_threshold prior' lik' distance thr0 (map (units a b) vs) k) in
  fst r' = map (part_units a b) (fst r) /\ ae_thr (snd r') = ae_thr (snd r)
  /\ forall i, ae_step (snd r') i = a i ^ 2 * ae_step (snd r) i.
Proof.
  intros Data d cat normal uniform steps nt rthr prior prior' lik lik' dist dflt a b thr0 vs k m Ha Hp Hl Hn r r'.
  assert (Hn' : forall E i, nt (map (part_units a b) E) i = nt E i).
  { destruct Hn as [[retain ->]|[l ->]]; intros E i; [apply adaptive_units|reflexivity]. }
  assert (E : r' = (map (part_units a b) (fst r), extra_units a (snd r))).
  { unfold r, r'. induction m as [|m IH].
    - cbn [iterate]. apply default_startup_units; assumption.
    - cbn [iterate]. rewrite IH. cbn [fst snd]. apply default_update_units; assumption. }
  rewrite E. split; [reflexivity|]. split; [reflexivity|]. intros i. reflexivity.
Qed.
Print Assumptions C127_units.

(** Once all particles agree in a coordinate they never move in it again,
    whatever is drawn. *)
Theorem C127_collapse_absorbing :
  forall (Data : Type) d categorical normal uniform steps (next_threshold : aensemble (Data := Data) -> nat -> xr) rthr
         prior (lik : vec -> key -> Data) distance dflt thr0 vs k i x m,
  categorical_ok categorical -> (2 <= length vs)%nat -> (1 <= d)%nat ->
  let r m := iterate (default_update d categorical normal uniform steps next_threshold rthr prior lik distance dflt) m
               (default_startup d next_threshold prior lik distance thr0 vs k) in
  (forall p, In p (fst (r m)) -> a_value (q_core p) i = x) ->
  forall m', (m <= m')%nat -> ae_step (snd (r m')) i = 0 /\ forall p, In p (fst (r m')) -> a_value (q_core p) i = x.
Proof.
  intros Data d cat normal uniform steps nt rthr prior lik dist dflt thr0 vs k i x m Ok Hv Hd r H.
  assert (Z : forall n, (forall p, In p (fst (r n)) -> a_value (q_core p) i = x) -> ae_step (snd (r n)) i = 0).
  { intros n Hn.
    destruct (C127_stepsize_partial Data d cat (rwabc_inner normal prior lik dist uniform steps) nt rthr dflt prior lik dist thr0 vs k
                (fun _ => 0) n Ok Hv Hd) as [_ P].
    destruct (P i) as (_ & N & [Q _]).
    change (iterate _ n _) with (r n) in N, Q.
    destruct (Rle_lt_or_eq_dec _ _ N) as [G|G]; [|symmetry; exact G].
    destruct (Q G) as (p & q & Hp & Hq & D). rewrite (Hn p Hp), (Hn q Hq) in D. congruence. }
  intros m' Hm. induction Hm as [|m' Hm [Sm IH]]; [split; [apply Z, H|exact H]|].
  assert (B : forall p, In p (fst (r (S m'))) -> a_value (q_core p) i = x).
  { intros p Hp. unfold r in Hp. cbn [iterate] in Hp.
    eapply update_stuck; [exact Ok|exact Sm|exact IH|exact Hp]. }
  split; [apply Z, B|exact B].
Qed.
Print Assumptions C127_collapse_absorbing.

(** Three particles at 0, 1 and 2 with their value as distance and threshold
    1/2: only the first has weight, so its variance alone is 0, but the step is
    2.38^2.  The resampled copies of it all propose 2.38, are all rejected, and
    from then on every particle of every ensemble is 0 and every proposal its
    own starting point. *)
Definition dist0 (x : R) : xr := Fin x.
Definition far (_ : vec) (_ : key) : xr := Fin 0.
Definition start3 : aensemble (Data := R) * aextra :=
  default_startup 1 (next_threshold_scheduled [Fin (/ 2)]) far (fun v _ => v 0%nat) dist0 (Fin (/ 2))
    [fun _ => 0; fun _ => 1; fun _ => 2] (KRoot 0).
Definition dflt3 : apart (Data := R) := APart (ABC (fun _ => 0) (Fin 0) 0 (Fin 0)) (Fin 1) (Fin (/ 2)) NInf NaN.

Lemma start3_lw : map q_lw (fst start3) = [Fin 0; NInf; NInf].
Proof.
  unfold start3, default_startup, a_startup, a_adapt, a_prestart. cbn -[ess_log_weight]. unfold a_log_weight. cbn -[ess_log_weight].
  rewrite (proj2 (Rltb_false (/ 2) 0)), (proj2 (Rltb_true (/ 2) 1)), (proj2 (Rltb_true (/ 2) 2)) by lra. reflexivity.
Qed.
Lemma start3_values : map (fun p => a_value (q_core p) 0%nat) (fst start3) = [0; 1; 2].
Proof. reflexivity. Qed.
Lemma start3_ess : match fst start3 with [] => NaN | p :: _ => q_ess p end = Fin 1.
Proof.
  assert (K : ess_log_weight [Fin 0; NInf; NInf] = Fin (INR 1)).
  { apply (C23_ess_k_equal _ 0); [|reflexivity|lia]. intros x [<-|[<-|[<-|[]]]]; auto. }
  transitivity (ess_log_weight (map q_lw (fst start3))); [reflexivity|]. rewrite start3_lw, K. reflexivity.
Qed.
Lemma start3_step : ae_step (snd start3) 0%nat = 2.38 ^ 2.
Proof.
  change (ae_step (snd start3) 0%nat) with (jcov (map (fun p => a_value (q_core p) 0%nat) (fst start3)) / INR 1 * 2.38 ^ 2).
  rewrite start3_values. unfold jcov, lmean. cbn [map fold_right length INR]. field.
Qed.

Theorem C127_dead_counted_refuted :
  exists (E : aensemble (Data := R)) (e : aextra) vs k,
  (E, e) = default_startup 1 (next_threshold_scheduled [Fin (/ 2)]) far (fun v _ => v 0%nat) dist0 (Fin (/ 2)) vs k
  /\ (forall x y, In x (weighted_coordinate 0 E) -> In y (weighted_coordinate 0 E) -> x = y)
  /\ weighted_coordinate 0 E = [0]
  /\ ae_step e 0%nat = 2.38 ^ 2.
Proof.
  exists (fst start3), (snd start3), [fun _ => 0; fun _ => 1; fun _ => 2], (KRoot 0).
  assert (W : weighted_coordinate 0 (fst start3) = [0]).
  { unfold weighted_coordinate, coordinate. pose proof start3_lw as L. pose proof start3_values as V.
    destruct (fst start3) as [|p [|q [|r [|? ?]]]]; try discriminate. cbn in L, V. injection L as L1 L2 L3. injection V as V1 V2 V3.
    cbn [filter]. rewrite L1, L2, L3. cbn. rewrite V1. reflexivity. }
  split; [reflexivity|]. rewrite W. split; [|split; [reflexivity|apply start3_step]].
  intros x y [<-|[]] [<-|[]]. reflexivity.
Qed.
Print Assumptions C127_dead_counted_refuted.

Theorem C127_collapse_refuted :
  exists categorical normal uniform vs k,
  categorical_ok categorical /\ (forall k, 0 <= uniform k < 1)
  /\ let nt := next_threshold_scheduled [Fin (/ 2)] in
     let r m := iterate (default_update 1 categorical normal uniform 1 nt (/ 2) far (fun v _ => v 0%nat) dist0 dflt3) m
                  (default_startup 1 nt far (fun v _ => v 0%nat) dist0 (Fin (/ 2)) vs k) in
     coordinate 0 (fst (r 0%nat)) = [0; 1; 2] /\ 0 < ae_step (snd (r 0%nat)) 0
     /\ forall m, (1 <= m)%nat -> ae_step (snd (r m)) 0%nat = 0 /\ coordinate 0 (fst (r m)) = [0; 0; 0].
Proof.
  exists cat_first, (fun _ _ => 1), (fun _ => 0), [fun _ => 0; fun _ => 1; fun _ => 2], (KRoot 0).
  split; [exact cat_first_ok|]. split; [intros; lra|]. cbv zeta.
  change (default_startup 1 _ far _ dist0 _ _ _) with start3.
  split; [reflexivity|]. split; [cbn [iterate]; rewrite start3_step; apply pow_lt; lra|].
  set (upd := default_update 1 _ _ _ _ _ _ _ _ _ _).
  assert (One : forall p, In p (fst (iterate upd 1 start3)) -> a_value (q_core p) 0%nat = 0).
  { intros p Hp. cbn [iterate] in Hp. apply (In_nth _ _ dflt3) in Hp. destruct Hp as (i & Hi & <-).
    set (inner := rwabc_inner (fun _ _ => 1) far (fun v _ => v 0%nat) dist0 (fun _ => 0) 1).
    assert (Li : (i < length (fst start3))%nat).
    { unfold upd, default_update in Hi. rewrite a_update_length in Hi by exact cat_first_ok. exact Hi. }
    destruct (C29_dead_unmoved R cat_first inner (adapt_stepsize_scaled_diag_cov 1)
                (next_threshold_scheduled [Fin (/ 2)]) (/ 2) dflt3 (fst start3) (snd start3) i cat_first_ok Li) as (_ & _ & G).
    destruct G as (q & kk & Hq & Fq & Eq).
    - rewrite start3_ess. apply Rltb_true. change (length (fst start3)) with 3%nat. cbn [INR]. lra.
    - rewrite start3_lw. split; [|apply Exists_cons_hd; eexists; reflexivity].
      apply Forall_cons; [right; eexists; reflexivity|]. repeat (apply Forall_cons; [left; reflexivity|]). apply Forall_nil.
    - unfold upd, default_update. fold inner. rewrite Eq.
      assert (Vq : a_value (q_core q) 0%nat = 0 /\ a_prior (q_core q) = Fin 0).
      { pose proof start3_lw as L. pose proof start3_values as V.
        assert (Pr : map (fun p => a_prior (q_core p)) (fst start3) = [Fin 0; Fin 0; Fin 0]) by reflexivity.
        destruct (fst start3) as [|p1 [|p2 [|p3 [|? ?]]]]; try discriminate.
        cbn in L, V, Pr. injection L as L1 L2 L3. injection V as V1 V2 V3. injection Pr as P1 P2 P3.
        destruct Hq as [<-|[<-|[<-|[]]]]; [split; assumption| |]; exfalso; rewrite ?L2, ?L3 in Fq; destruct Fq; discriminate. }
      unfold inner, rwabc_inner. cbn [fst iterate snd].
      unfold abc_update, mcmc_update, abc_always, abc_proposal, metropolis_correct. cbn [core par rkey iter alpha stepsize].
      assert (A : xltb (dist0 (a_value (q_core q) 0%nat + sqrt (ae_step (snd start3) 0%nat) * 1)) (ae_thr (snd start3)) = false).
      { apply Rltb_false. rewrite (proj1 Vq), start3_step, sqrt_pow2 by lra. lra. }
      unfold abc_acceptance. cbn [core a_dist a_prior par threshold]. rewrite A, (proj2 Vq). unfold far. cbn.
      rewrite Rmult_0_r. unfold xmin, xleb. rewrite (proj2 (Rleb_false 1 0)) by lra. cbn.
      rewrite (proj2 (Rltb_false 0 0)) by lra. cbn. apply Vq. }
  intros m Hm.
  destruct (C127_collapse_absorbing R 1 cat_first (fun _ _ => 1) (fun _ => 0) 1 (next_threshold_scheduled [Fin (/ 2)]) (/ 2)
              far (fun v _ => v 0%nat) dist0 dflt3 (Fin (/ 2)) [fun _ => 0; fun _ => 1; fun _ => 2] (KRoot 0) 0%nat 0 1
              cat_first_ok ltac:(cbn; lia) (le_n 1) One m Hm) as [Z All].
  split; [exact Z|].
  destruct (C127_stepsize_partial R 1 cat_first (rwabc_inner (fun _ _ => 1) far (fun v _ => v 0%nat) dist0 (fun _ => 0) 1)
     (next_threshold_scheduled [Fin (/ 2)]) (/ 2) dflt3 far (fun v _ => v 0%nat) dist0 (Fin (/ 2))
     [fun _ => 0; fun _ => 1; fun _ => 2] (KRoot 0) (fun _ => 0) m cat_first_ok ltac:(cbn; lia) (le_n 1)) as [L _].
  change (iterate _ m _) with (iterate upd m start3) in L.
  change (iterate _ m _) with (iterate upd m start3) in All.
  unfold coordinate. destruct (fst (iterate upd m start3)) as [|p1 [|p2 [|p3 [|? ?]]]]; try discriminate.
  cbn [map]. rewrite !All by (cbn; auto). reflexivity.
Qed.
Print Assumptions C127_collapse_refuted.

(** 0, 1 and 2 have variance 1; in other units 10 v + 5 it is 100.  A prior
    potential and a simulator written in those units. *)
Example C127_example :
  let a := fun _ : nat => 10 in let b := fun _ : nat => 5 in
  let prior' := fun (w : vec) (_ : key) => Fin ((w 0%nat - 5) / 10) in
  let lik' := fun (w : vec) (_ : key) => (w 1%nat - 5) * 2 in
  pair_variance [0; 1; 2] = 1 /\ pair_variance [5; 15; 25] = 100
  /\ (forall i : nat, 0 < a i)
  /\ (forall v k, prior' (units a b v) k = Fin (v 0%nat))
  /\ (forall v k, lik' (units a b v) k = 20 * v 1%nat).
Proof.
  unfold pair_variance, rsum, units. cbn [map fold_right length Nat.sub INR].
  split; [field|]. split; [field|]. split; [intros; lra|]. split; intros; [f_equal; field|ring].
Qed.
