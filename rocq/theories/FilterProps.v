(** C43, C64, C65: particle filters. *)
From Coq Require Import Reals List Arith Lia Lra.
From Verif Require Import XR Keys HmcModel WeightsModel WeightsSpec WeightsProofs McmcSpec McmcProofs SmcSpec
  SmcProps FilterModel FilterSpec FilterProofs.
Import ListNotations.
Open Scope R_scope.

(** C43 for a run for marginals: row 0 is an initial sample, every later row a
    filter step from the row before it, resampling when the recorded effective
    sample size is below the threshold; shapes, times and data are kept. *)
Theorem C43_marginals :
  forall (X Tm : Type) (dx : X) (dt : Tm) categorical (F : pfilter X Tm)
    (n : nat) (ys : list obs) (ts : list Tm) (k : key) (thr : R),
  categorical_ok categorical -> ys <> [] -> length ts = length ys ->
  exists p, run_particle_filter dx categorical F n ys ts k thr = Some p
  /\ times p = ts /\ observed p = Rows ys
  /\ length (value p) = length ys /\ length (log_weight p) = length ys /\ length (ess p) = length ys
  /\ length (nth 0 (value p) []) = n /\ length (nth 0 (log_weight p) []) = n
  /\ (exists ks : nat -> key, forall i, (i < n)%nat ->
        nth i (nth 0 (value p) []) dx = initial_sample F (nth 0 ys []) (nth 0 ts dt) (ks i)
        /\ nth i (nth 0 (log_weight p) []) NaN
           = initial_log_weight F (nth i (nth 0 (value p) []) dx) (nth 0 ys []) (nth 0 ts dt))
  /\ (lw_ok (nth 0 (log_weight p) []) -> nth 0 (ess p) NaN = Fin (kish (weights (nth 0 (log_weight p) []))))
  /\ forall s, (S s < length ys)%nat ->
     filter_step dx (proposal_sample F) (intermediate_log_weight F) n
       (xlt (nth s (ess p) NaN) (Fin (thr * INR n)))
       (nth s (value p) []) (nth s (log_weight p) []) (nth s ts dt)
       (nth (S s) ys []) (nth (S s) ts dt)
       (nth (S s) (value p) []) (nth (S s) (log_weight p) []) (nth (S s) (ess p) NaN).
Proof.
  intros X Tm dx dt cat F n ys ts k thr Hcat Hy Ht.
  destruct ys as [|y0 ys]; [congruence|]. destruct ts as [|t0 ts]; [discriminate|].
  assert (Lt : length ts = length ys) by (cbn in Ht; lia).
  cbn [run_particle_filter].
  set (p0 := initiate_particles F n (KSplit k 2 1) y0 t0).
  destruct (initiate_ok dx F n (KSplit k 2 1) y0 t0 dt) as ((_ & FV & _ & FW & _) & _ & _ & N0 & e & Ee & He).
  fold p0 in FV, FW, N0, Ee, He.
  set (s0 := Marginal (nth 0 (value p0) []) (nth 0 (log_weight p0) []) t0 y0 e).
  assert (Lv : length (m_value s0) = n) by (inversion FV; assumption).
  assert (Ll : length (m_lw s0) = n) by (inversion FW; assumption).
  assert (Er : run_from dx cat F p0 ys ts (KSplit k 2 0) thr
    = let ms := filter_scan dx cat F thr n s0 (combine ys ts)
                  (split_keys (KSplit k 2 0) (length ys) 0 (length ys)) in
      Some (Particles (map m_value (s0 :: ms)) (map m_lw (s0 :: ms)) (map m_t (s0 :: ms))
                      (Rows (map m_y (s0 :: ms))) (map m_ess (s0 :: ms)))).
  { unfold run_from. change (last_marginal p0) with
      (Some (Marginal (nth 0 (value p0) []) (nth 0 (log_weight p0) []) t0 y0
               (ess_log_weight (nth 0 (log_weight p0) [])))).
    assert (E' : ess_log_weight (nth 0 (log_weight p0) []) = e) by (change (ess p0) with
       [ess_log_weight (nth 0 (log_weight p0) [])] in Ee; congruence).
    rewrite E'. fold s0. rewrite Lv. cbn [observed p0 initiate_particles]. cbv zeta.
    rewrite Ee. reflexivity. }
  rewrite Er. cbv zeta.
  destruct (filter_scan_ok dx cat Hcat F thr n (combine ys ts)
     (split_keys (KSplit k 2 0) (length ys) 0 (length ys)) s0 (conj Lv Ll))
    as (Lm & Ey & Et & Fm & St).
  { rewrite split_keys_length, combine_length. lia. }
  set (ms := filter_scan _ _ _ _ _ _ _ _) in *. clearbody ms.
  rewrite combine_length in Lm, St. replace (Nat.min (length ys) (length ts)) with (length ys) in * by lia.
  assert (Ey' : map m_y (s0 :: ms) = y0 :: ys).
  { cbn [map m_y s0]. rewrite Ey. f_equal. clear -Lt. revert ts Lt. induction ys; intros [|t ts] L; try discriminate; auto.
    cbn. f_equal. apply IHys. cbn in L. lia. }
  assert (Et' : map m_t (s0 :: ms) = t0 :: ts).
  { cbn [map m_t s0]. rewrite Et. f_equal. clear -Lt. revert ts Lt. induction ys; intros [|t ts] L; try discriminate; auto.
    cbn. f_equal. apply IHys. cbn in L. lia. }
  eexists. split; [reflexivity|]. cbn [value log_weight times observed ess].
  split; [exact Et'|]. split; [rewrite Ey'; reflexivity|].
  rewrite !map_length. cbn [length]. rewrite Lm.
  split; [reflexivity|]. split; [reflexivity|]. split; [reflexivity|].
  split; [exact Lv|]. split; [exact Ll|].
  split; [exists (fun i => KSplit (KSplit k 2 1) n i); intros i Hi; apply (N0 i Hi)|].
  split; [exact He|].
  intros s Hs. specialize (St s ltac:(lia)). cbv zeta in St.
  rewrite <- Et', <- Ey'.
  rewrite !(nth_map_in _ _ _ s0) by (cbn [length]; lia). exact St.
Qed.
Print Assumptions C43_marginals.

(** C43 for one call of [propagate_particle_filter] on [T + 1] recorded times:
    the new row is a filter step from the last recorded one; each new particle
    was proposed from the particle recorded before it with the same index; and
    apart from resampling (of the whole paths, or of the last states only)
    nothing recorded changes. *)
Theorem C43_propagate :
  forall (X Tm : Type) (dx : X) (dt : Tm) categorical (F : pfilter X Tm)
    (n T : nat) (p : particles X Tm) (y : obs) (t1 : Tm) (k : key) (thr : R) (full : bool),
  categorical_ok categorical ->
  length (value p) = S T -> Forall (fun r => length r = n) (value p) ->
  length (log_weight p) = S T -> Forall (fun r => length r = n) (log_weight p) ->
  length (times p) = S T -> length (ess p) = S T ->
  let resampled := xlt (nth T (ess p) NaN) (Fin (thr * INR n)) in
  exists p', propagate_particle_filter dx categorical F p y t1 k thr full = Some p'
  /\ length (value p') = S (S T) /\ Forall (fun r => length r = n) (value p')
  /\ length (log_weight p') = S (S T) /\ Forall (fun r => length r = n) (log_weight p')
  /\ times p' = times p ++ [t1] /\ length (ess p') = S (S T)
  /\ filter_step dx (proposal_sample F) (intermediate_log_weight F) n resampled
       (nth T (value p) []) (nth T (log_weight p) []) (nth T (times p) dt) y t1
       (nth (S T) (value p') []) (nth (S T) (log_weight p') []) (nth (S T) (ess p') NaN)
  /\ (forall i, (i < n)%nat -> successor (proposal_sample F) (nth T (times p) dt) y t1
        (nth i (nth T (value p') []) dx) (nth i (nth (S T) (value p') []) dx))
  /\ (forall s, (s < T)%nat -> nth s (log_weight p') [] = nth s (log_weight p) [])
  /\ (~ resampled -> nth T (log_weight p') [] = nth T (log_weight p) []
                     /\ forall s, (s <= T)%nat -> nth s (value p') [] = nth s (value p) [])
  /\ (resampled -> nth T (log_weight p') [] = repeat (Fin 0) n
      /\ exists anc : nat -> nat, (forall i, (i < n)%nat -> (anc i < n)%nat)
         /\ (forall i, (i < n)%nat -> lw_ok (nth T (log_weight p) []) -> finite (nth (anc i) (nth T (log_weight p) []) NInf))
         /\ forall s i, (s <= T)%nat -> (i < n)%nat ->
            nth i (nth s (value p') []) dx
            = nth (if orb full (Nat.eqb s T) then anc i else i) (nth s (value p) []) dx).
Proof.
  intros X Tm dx dt cat F n T p y t1 k thr full Hcat H1 H2 H3 H4 H5 H6 resampled.
  destruct (propagate_ok dx cat Hcat F n T p y t1 k thr full dt (conj H1 (conj H2 (conj H3 (conj H4 (conj H5 H6))))))
    as (p' & x1 & lw1 & e1 & E & (S1 & S2 & S3 & S4 & S5 & S6) & Et & <- & <- & Ee & _ & Hst & Lk & Hl & Hno & Hyes).
  exists p'. repeat (split; [assumption|]). split; [|split; [|split; [|split]]].
  - rewrite Ee, (nth_last (ess p)) by assumption. exact Hst.
  - intros i Hi. exists (KSplit k n i). exact (Lk i Hi).
  - exact Hl.
  - exact Hno.
  - exact Hyes.
Qed.
Print Assumptions C43_propagate.

(** C43, paths: after any number of propagations with full resampling every
    recorded path is an initial sample followed by proposals, each from the
    state recorded just before it. *)
Theorem C43_paths :
  forall (X Tm : Type) (dx : X) (dt : Tm) categorical (F : pfilter X Tm)
    (n : nat) (y0 : obs) (t0 : Tm) (k0 : key) (steps : list (obs * Tm * key)) (thr : R),
  categorical_ok categorical ->
  let ys := y0 :: map (fun x => fst (fst x)) steps in let ts := t0 :: map (fun x => snd (fst x)) steps in
  exists p, propagate_all dx categorical F (initiate_particles F n k0 y0 t0) steps thr true = Some p
  /\ times p = ts /\ length (value p) = S (length steps) /\ Forall (fun r => length r = n) (value p)
  /\ forall i, (i < n)%nat ->
     (exists k, nth i (nth 0 (value p) []) dx = initial_sample F y0 t0 k)
     /\ forall s, (s < length steps)%nat ->
        successor (proposal_sample F) (nth s ts dt) (nth (S s) ys []) (nth (S s) ts dt)
          (nth i (nth s (value p) []) dx) (nth i (nth (S s) (value p) []) dx).
Proof.
  intros X Tm dx dt cat F n y0 t0 k0 steps thr Hcat ys ts.
  destruct (initiate_ok dx F n k0 y0 t0 dt) as (Sh & Et0 & Ch & _).
  destruct (propagate_all_chained dx cat Hcat F n thr dt steps 0 _ [y0] Sh eq_refl Ch)
    as (p & E & Sp & Et & Ci & Cs).
  exists p. split; [exact E|]. rewrite Et0 in Et. split; [exact Et|].
  destruct Sp as (L1 & L2 & _). split; [rewrite L1; lia|]. split; [exact L2|].
  intros i Hi. rewrite Et in Ci, Cs. split; [exact (Ci i Hi)|].
  intros s Hs. apply Cs; [lia|exact Hi].
Qed.
Print Assumptions C43_paths.

(** two particles numbered by their keys, the second of weight 0 *)
Definition two_filter : pfilter nat nat :=
  PFilter (fun _ _ k => match k with KSplit _ _ i => i | _ => 0%nat end)
          (fun x _ _ => match x with O => Fin 0 | _ => NInf end)
          (fun x _ _ _ k => match k with KSplit _ _ i => x + i | _ => x end)%nat (fun _ _ _ _ _ => Fin 0).

(** C43, recorded sizes: [propagate_particle_filter] resets the weights of the
    last recorded time when it resamples but keeps the effective sample size
    recorded there, so that the record no longer agrees with itself. *)
Theorem C43_recorded_ess_refuted :
  exists categorical (F : pfilter nat nat) p p' (y : obs) (t1 : nat) (k : key) (thr : R),
  categorical_ok categorical
  /\ p = initiate_particles F 2 (KRoot 0) [0] 0%nat
  /\ propagate_particle_filter 0%nat categorical F p y t1 k thr true = Some p'
  /\ lw_ok (nth 0 (log_weight p) []) /\ nth 0 (ess p) NaN = Fin (kish (weights (nth 0 (log_weight p) [])))
  /\ lw_ok (nth 0 (log_weight p') []) /\ nth 0 (ess p') NaN <> Fin (kish (weights (nth 0 (log_weight p') []))).
Proof.
  exists cat_first, (two_filter), (initiate_particles (two_filter) 2 (KRoot 0) [0] 0%nat).
  set (p := initiate_particles (two_filter) 2 (KRoot 0) [0] 0%nat).
  assert (O : lw_ok (nth 0 (log_weight p) [])).
  { change (nth 0 (log_weight p) []) with [Fin 0; NInf]. split.
    - constructor; [right; exists 0; reflexivity|]. constructor; [left; reflexivity|constructor].
    - apply Exists_cons_hd. exists 0. reflexivity. }
  assert (K : kish (weights (nth 0 (log_weight p) [])) = 1).
  { unfold kish. cbn. rewrite exp_0. field. }
  assert (E : nth 0 (ess p) NaN = Fin 1) by (rewrite <- K; apply (ess_kish _ O)).
  destruct (propagate_ok 0%nat cat_first cat_first_ok (two_filter) 2 0 p [0] 1%nat (KRoot 1) 1 true 0%nat)
    as (p' & x1 & lw1 & e1 & Ep & _ & _ & _ & _ & Ee & _ & _ & _ & _ & _ & Hyes).
  { unfold shaped. cbn. repeat split; repeat constructor. }
  exists p', [0], 1%nat, (KRoot 1), 1.
  split; [exact cat_first_ok|]. split; [reflexivity|]. split; [exact Ep|]. split; [exact O|].
  split; [rewrite K; exact E|].
  rewrite E in Hyes. destruct (Hyes ltac:(cbn; lra)) as (Z & _). unfold lw_at in Z. rewrite Z.
  split.
  { split; [constructor; [|constructor; [|constructor]]; right; exists 0; reflexivity|]. apply Exists_cons_hd. exists 0. reflexivity. }
  rewrite Ee, app_nth1 by (cbn; lia). rewrite E. intros [= H]. revert H.
  unfold kish. cbn. rewrite exp_0. lra.
Qed.
Print Assumptions C43_recorded_ess_refuted.

(** The second of two particles has weight 0: a step resamples and both
    descend from the first. *)
Example C43_example :
  let s := filter_body 0%nat cat_first two_filter 1 2 (Marginal [0; 1]%nat [Fin 0; NInf] 0%nat [0] (Fin 1)) [7] 1%nat (KRoot 5) in
  m_value s = [0; 1]%nat /\ m_lw s = [Fin (0 + 0); Fin (0 + 0)] /\ m_y s = [7].
Proof.
  unfold filter_body. cbn [m_ess m_value m_lw m_t m_y].
  replace (xltb (Fin 1) (Fin (1 * INR 2))) with true by (symmetry; apply xltb_xlt; cbn; lra).
  repeat split; reflexivity.
Qed.

(** * C64: recorded observations *)

(** After [propagate_particle_filter] the record of observations is flat: its
    length is the number of numbers seen, not of times.  The numbers are right. *)
Theorem C64_observations_partial :
  forall (X Tm : Type) (dx : X) categorical (F : pfilter X Tm)
    (n T : nat) (p : particles X Tm) (y : obs) (t1 : Tm) (k : key) (thr : R) (full : bool),
  categorical_ok categorical ->
  length (value p) = S T -> Forall (fun r => length r = n) (value p) ->
  length (log_weight p) = S T -> Forall (fun r => length r = n) (log_weight p) ->
  length (times p) = S T -> length (ess p) = S T ->
  exists p', propagate_particle_filter dx categorical F p y t1 k thr full = Some p'
  /\ ravel (observed p') = ravel (observed p) ++ y.
Proof.
  intros X Tm dx cat F n T p y t1 k thr full Hcat H1 H2 H3 H4 H5 H6. set (dt := t1).
  destruct (propagate_ok dx cat Hcat F n T p y t1 k thr full dt (conj H1 (conj H2 (conj H3 (conj H4 (conj H5 H6))))))
    as (p' & x1 & lw1 & e1 & E & _ & _ & _ & _ & _ & Ey & _).
  exists p'. split; [exact E|]. rewrite Ey. reflexivity.
Qed.
Print Assumptions C64_observations_partial.

Theorem C64_observations_refuted :
  forall (F : pfilter nat nat) categorical (n : nat) (y0 y1 : obs) (t0 t1 : nat) (k0 k1 : key) (thr : R) (full : bool),
  categorical_ok categorical ->
  exists p, propagate_particle_filter 0%nat categorical F (initiate_particles F n k0 y0 t0) y1 t1 k1 thr full = Some p
  /\ times p = [t0; t1] /\ observed p <> Rows [y0; y1]
  /\ forall l, observed p = Flat l -> length l = (length y0 + length y1)%nat.
Proof.
  intros F cat n y0 y1 t0 t1 k0 k1 thr full Hcat.
  destruct (initiate_ok 0%nat F n k0 y0 t0 0%nat) as (Sh & Et0 & _).
  destruct (propagate_ok 0%nat cat Hcat F n 0 _ y1 t1 k1 thr full 0%nat Sh)
    as (p' & x1 & lw1 & e1 & E & _ & Et & _ & _ & _ & Ey & _).
  exists p'. split; [exact E|]. rewrite Et, Et0, Ey. split; [reflexivity|]. split; [discriminate|].
  intros l [= <-]. cbn. rewrite app_nil_r, app_length. reflexivity.
Qed.
Print Assumptions C64_observations_refuted.

(** * C65: importance weights *)

Lemma weight_add a b : (a = NInf \/ finite a) -> (b = NInf \/ finite b) -> weight (xadd a b) = weight a * weight b.
Proof.
  intros [->|[r ->]] [->|[s ->]]; cbn; try ring. apply exp_plus.
Qed.
Lemma ninf_add a b : (a = NInf \/ finite a) -> (b = NInf \/ finite b) -> xadd a b = NInf \/ finite (xadd a b).
Proof. intros [->|[r ->]] [->|[s ->]]; cbn; unfold finite; eauto. Qed.
Lemma opp_ninf u : potential_value u -> xopp u = NInf \/ finite (xopp u).
Proof. intros [[r ->]| ->]; cbn; unfold finite; eauto. Qed.
Lemma weight_opp u : weight (xopp u) = density u.
Proof. destruct u; reflexivity. Qed.

(** one step: weight times proposal density is transition times likelihood *)
Lemma base_increment {X Tm} (M : smodel X Tm) ps pp x0 t0 x1 y1 t1 :
  potential_value (s_transition_potential M x0 t0 x1 t1) ->
  potential_value (s_likelihood_potential M x1 y1 t1) -> finite (pp x0 t0 x1 y1 t1) ->
  let w := intermediate_log_weight (base_filter M ps pp) x0 t0 x1 y1 t1 in
  (w = NInf \/ finite w)
  /\ weight w * density (pp x0 t0 x1 y1 t1)
     = density (s_transition_potential M x0 t0 x1 t1) * density (s_likelihood_potential M x1 y1 t1).
Proof.
  intros HT HL [q Hq]. cbn [base_filter intermediate_log_weight]. rewrite Hq.
  assert (A := opp_ninf _ HT). assert (B := opp_ninf _ HL).
  unfold xsub. assert (C := ninf_add _ _ A B). cbv zeta. split.
  - apply ninf_add; [exact C|right; exists q; reflexivity].
  - rewrite weight_add; [|exact C|right; exists q; reflexivity].
    rewrite weight_add by assumption. rewrite !weight_opp. cbn [weight density].
    rewrite Rmult_assoc, <- exp_plus, Rplus_opp_r, exp_0. ring.
Qed.

(** C65: as long as no step resamples, the weight of every path, times the
    density with which its states were proposed, is its density under the model
    times that of the data (initial states are drawn from the model). *)
Theorem C65_path_weight :
  forall (X Tm : Type) (dx : X) (dt : Tm) categorical (M : smodel X Tm) ps pp
    (n : nat) (ys : list obs) (ts : list Tm) (k : key) (thr : R) p,
  categorical_ok categorical -> ys <> [] -> length ts = length ys ->
  run_particle_filter dx categorical (base_filter M ps pp) n ys ts k thr = Some p ->
  let x i s := nth i (nth s (value p) []) dx in
  let t s := nth s ts dt in let y s := nth s ys [] in
  forall i T, (i < n)%nat -> (T < length ys)%nat ->
  (forall s, (s < T)%nat -> ~ xlt (nth s (ess p) NaN) (Fin (thr * INR n))) ->
  (forall s, (s <= T)%nat -> potential_value (s_likelihood_potential M (x i s) (y s) (t s))) ->
  (forall s, (s < T)%nat -> potential_value (s_transition_potential M (x i s) (t s) (x i (S s)) (t (S s)))
                            /\ finite (pp (x i s) (t s) (x i (S s)) (y (S s)) (t (S s)))) ->
  weight (nth i (nth T (log_weight p) []) NaN)
    * prodn T (fun s => density (pp (x i s) (t s) (x i (S s)) (y (S s)) (t (S s))))
  = prodn T (fun s => density (s_transition_potential M (x i s) (t s) (x i (S s)) (t (S s))))
    * prodn (S T) (fun s => density (s_likelihood_potential M (x i s) (y s) (t s))).
Proof.
  intros X Tm dx dt cat M ps pp n ys ts k thr p Hcat Hy Ht E x t y i T Hi HT Hno HL Hst.
  destruct (C43_marginals X Tm dx dt cat (base_filter M ps pp) n ys ts k thr Hcat Hy Ht)
    as (p0 & E0 & _ & _ & _ & _ & _ & _ & _ & (ks & Hini) & _ & Hstep).
  assert (p0 = p) by congruence. subst p0. clear E0.
  enough (G : (nth i (nth T (log_weight p) []) NaN = NInf \/ finite (nth i (nth T (log_weight p) []) NaN))
    /\ weight (nth i (nth T (log_weight p) []) NaN)
    * prodn T (fun s => density (pp (x i s) (t s) (x i (S s)) (y (S s)) (t (S s))))
  = prodn T (fun s => density (s_transition_potential M (x i s) (t s) (x i (S s)) (t (S s))))
    * prodn (S T) (fun s => density (s_likelihood_potential M (x i s) (y s) (t s)))) by apply G.
  induction T as [|T IH].
  - destruct (Hini i Hi) as [_ ->]. cbn [base_filter initial_log_weight].
    split; [apply opp_ninf, (HL 0%nat); lia|]. rewrite weight_opp. cbn [prodn]. unfold x, y, t. ring.
  - destruct IH as [Ia Ib]; [lia| | | |].
    { intros s Hs. apply Hno. lia. }
    { intros s Hs. apply HL. lia. }
    { intros s Hs. apply Hst. lia. }
    destruct (Hstep T HT) as (_ & _ & _ & anc & noise & Hs).
    destruct (Hs i Hi) as (_ & _ & Ea & _ & _ & Ew).
    assert (HnT : ~ xlt (nth T (ess p) NaN) (Fin (thr * INR n))) by (apply Hno; lia).
    rewrite (Ea HnT) in Ew. specialize (Ew HnT).
    destruct (base_increment M ps pp (x i T) (t T) (x i (S T)) (y (S T)) (t (S T))) as [Wa Wb];
      [apply Hst; lia|apply HL; lia|apply Hst; lia|].
    fold (x i T) in Ew. fold (x i (S T)) in Ew. fold (t T) in Ew. fold (t (S T)) in Ew. fold (y (S T)) in Ew.
    rewrite Ew. split; [apply ninf_add; assumption|].
    rewrite weight_add by assumption.
    cbn [prodn] in Ib |- *. rewrite <- (Rmult_assoc _ (prodn T _) (density _)).
    set (w0 := weight (nth i (nth T (log_weight p) []) NaN)) in *.
    set (w1 := weight (intermediate_log_weight (base_filter M ps pp) (x i T) (t T) (x i (S T)) (y (S T)) (t (S T)))) in *.
    transitivity ((w0 * prodn T (fun s => density (pp (x i s) (t s) (x i (S s)) (y (S s)) (t (S s)))))
                  * (w1 * density (pp (x i T) (t T) (x i (S T)) (y (S T)) (t (S T))))); [ring|].
    rewrite Ib, Wb. ring.
Qed.
Print Assumptions C65_path_weight.

(** C65, bootstrap filter: its weight is the base class's for its proposal,
    wherever the transition density is positive. *)
Theorem C65_bootstrap :
  forall (X Tm : Type) (M : smodel X Tm) x0 t0 x1 y1 t1,
  finite (s_transition_potential M x0 t0 x1 t1) -> potential_value (s_likelihood_potential M x1 y1 t1) ->
  intermediate_log_weight (bootstrap M) x0 t0 x1 y1 t1
  = intermediate_log_weight
      (base_filter M (proposal_sample (bootstrap M)) (bootstrap_potential M)) x0 t0 x1 y1 t1.
Proof.
  intros X Tm M x0 t0 x1 y1 t1 [a Ha] HL. cbn. unfold bootstrap_potential. rewrite Ha.
  destruct HL as [[l ->]| ->]; cbn; [f_equal; ring|reflexivity].
Qed.
Print Assumptions C65_bootstrap.

(** A Gaussian random walk proposed from a wider law. *)
Definition walk_model : smodel R R :=
  SModel (fun x _ => Fin (x ^ 2 / 2)) (fun _ _ => 1) (fun x _ x' _ => Fin ((x' - x) ^ 2 / 2))
         (fun x _ _ _ => x + 1) (fun x y _ => Fin ((nth 0 y 0 - x) ^ 2 / 2)).
Example C65_example :
  let F := base_filter walk_model (fun x _ _ _ _ => x + 2) (fun x _ x' _ _ => Fin ((x' - x) ^ 2 / 8)) in
  exists p, run_particle_filter 0 cat_first F 2 [[0]; [3]] [0; 1] (KRoot 0) (-1) = Some p
  /\ weight (nth 1 (nth 1 (log_weight p) []) NaN) * exp (- (2 ^ 2 / 8))
     = exp (- (2 ^ 2 / 2)) * (exp (- (1 ^ 2 / 2)) * exp (- (0 ^ 2 / 2))).
Proof.
  intros F.
  destruct (C43_marginals R R 0 0 cat_first F 2 [[0]; [3]] [0; 1] (KRoot 0) (-1) cat_first_ok)
    as (p & E & _ & _ & _ & _ & _ & _ & _ & (ks & Hini) & He & Hs); [discriminate|reflexivity|].
  exists p. split; [exact E|].
  assert (Hno : ~ xlt (nth 0 (ess p) NaN) (Fin (-1 * INR 2))).
  { rewrite He.
    - cbn [xlt]. intros Hlt.
      assert (0 <= kish (weights (nth 0 (log_weight p) []))).
      { unfold kish. apply Rmult_le_pos; [apply pow2_ge_0|].
        destruct (Rsum_nonneg (map (fun x => x ^ 2) (weights (nth 0 (log_weight p) [])))) as [H|H].
        - apply Forall_forall. intros z Hz. apply in_map_iff in Hz. destruct Hz as (w & <- & _). apply pow2_ge_0.
        - left. apply Rinv_0_lt_compat, H.
        - rewrite <- H, Rinv_0. lra. }
      cbn in Hlt. lra.
    - injection E as <-. cbn. split.
      + repeat (constructor; [right; eexists; reflexivity|]). constructor.
      + apply Exists_cons_hd. eexists. reflexivity. }
  destruct (Hs 0%nat ltac:(cbn; lia)) as (_ & _ & _ & anc & noise & Hst).
  destruct (Hst 1%nat ltac:(lia)) as (_ & _ & Ea & Ex & _).
  rewrite (Ea Hno) in Ex. destruct (Hini 1%nat ltac:(lia)) as [E1 _]. cbn in E1. rewrite E1 in Ex. cbn in Ex.
  assert (G := C65_path_weight R R 0 0 cat_first walk_model _ _ 2 [[0]; [3]] [0; 1] (KRoot 0) (-1) p
     cat_first_ok ltac:(discriminate) eq_refl E 1%nat 1%nat ltac:(lia) ltac:(cbn; lia)).
  cbv zeta in G. cbn [prodn] in G. rewrite Ex in G. rewrite E1 in G.
  cbn [walk_model s_transition_potential s_likelihood_potential density nth] in G.
  rewrite !Rmult_1_l in G.
  replace (1 + 2 - 1) with 2 in G by ring. replace (3 - (1 + 2)) with 0 in G by ring.
  replace ((0 - 1) ^ 2) with (1 ^ 2) in G by ring.
  apply G.
  - intros s Hlt. replace s with 0%nat by lia. exact Hno.
  - intros s _. left. eexists. reflexivity.
  - intros s _. split; [left|]; eexists; reflexivity.
Qed.

(** A run of the bootstrap filter: every particle is simulated by the model, at
    the times of the data, from its ancestor; between resamplings its weight is
    the product of the likelihoods of its path. *)
Theorem C65_bootstrap_paths :
  forall (X Tm : Type) (dx : X) (dt : Tm) categorical (M : smodel X Tm)
    (n : nat) (ys : list obs) (ts : list Tm) (k : key) (thr : R) p,
  categorical_ok categorical -> ys <> [] -> length ts = length ys ->
  run_particle_filter dx categorical (bootstrap M) n ys ts k thr = Some p ->
  let x i s := nth i (nth s (value p) []) dx in
  let t s := nth s ts dt in let y s := nth s ys [] in
  (forall i, (i < n)%nat -> exists k', x i 0%nat = s_initial_sample M (t 0%nat) k')
  /\ (forall i s, (i < n)%nat -> (S s < length ys)%nat -> exists a k', (a < n)%nat
        /\ (~ xlt (nth s (ess p) NaN) (Fin (thr * INR n)) -> a = i)
        /\ x i (S s) = s_transition_sample M (x a s) (t s) (t (S s)) k')
  /\ (forall i T, (i < n)%nat -> (T < length ys)%nat ->
        (forall s, (s < T)%nat -> ~ xlt (nth s (ess p) NaN) (Fin (thr * INR n))) ->
        (forall s, (s <= T)%nat -> potential_value (s_likelihood_potential M (x i s) (y s) (t s))) ->
        weight (nth i (nth T (log_weight p) []) NaN)
        = prodn (S T) (fun s => density (s_likelihood_potential M (x i s) (y s) (t s)))).
Proof.
  intros X Tm dx dt cat M n ys ts k thr p Hcat Hy Ht E x t y.
  destruct (C43_marginals X Tm dx dt cat (bootstrap M) n ys ts k thr Hcat Hy Ht)
    as (p0 & E0 & _ & _ & _ & _ & _ & _ & _ & (ks & Hini) & _ & Hstep).
  assert (p0 = p) by congruence. subst p0. clear E0. split; [|split].
  - intros i Hi. exists (ks i). destruct (Hini i Hi) as [H _]. exact H.
  - intros i s Hi Hs. destruct (Hstep s Hs) as (_ & _ & _ & anc & noise & H).
    destruct (H i Hi) as (Ha & _ & Ea & Ex & _). exists (anc i), (noise i). split; [exact Ha|]. split; [exact Ea|exact Ex].
  - intros i T Hi HT Hno HL.
    enough (G : (nth i (nth T (log_weight p) []) NaN = NInf \/ finite (nth i (nth T (log_weight p) []) NaN))
      /\ weight (nth i (nth T (log_weight p) []) NaN)
         = prodn (S T) (fun s => density (s_likelihood_potential M (x i s) (y s) (t s)))) by apply G.
    induction T as [|T IH].
    + destruct (Hini i Hi) as [_ ->]. cbn [bootstrap initial_log_weight].
      split; [apply opp_ninf, (HL 0%nat); lia|]. rewrite weight_opp. cbn [prodn]. unfold x, y, t. ring.
    + destruct IH as [Ia Ib]; [lia| | |].
      { intros s Hs. apply Hno. lia. }
      { intros s Hs. apply HL. lia. }
      destruct (Hstep T HT) as (_ & _ & _ & anc & noise & Hs).
      destruct (Hs i Hi) as (_ & _ & _ & _ & _ & Ew).
      assert (HnT : ~ xlt (nth T (ess p) NaN) (Fin (thr * INR n))) by (apply Hno; lia).
      specialize (Ew HnT). cbn [bootstrap intermediate_log_weight] in Ew.
      fold (x i (S T)) in Ew. fold (t (S T)) in Ew. fold (y (S T)) in Ew.
      assert (Wa : xopp (s_likelihood_potential M (x i (S T)) (y (S T)) (t (S T))) = NInf
                   \/ finite (xopp (s_likelihood_potential M (x i (S T)) (y (S T)) (t (S T))))).
      { apply opp_ninf, HL. lia. }
      rewrite Ew. split; [apply ninf_add; assumption|].
      rewrite weight_add by assumption. rewrite weight_opp. cbn [prodn] in Ib |- *. rewrite Ib. ring.
Qed.
Print Assumptions C65_bootstrap_paths.
Example C65_bootstrap_paths_example :
  exists p, run_particle_filter 0 cat_first (bootstrap walk_model) 2 [[0]; [3]] [0; 1] (KRoot 0) (-1) = Some p
  /\ nth 1 (nth 1 (value p) []) 0 = 1 + 1
  /\ potential_value (s_likelihood_potential walk_model 2 [3] 1).
Proof.
  destruct (C43_marginals R R 0 0 cat_first (bootstrap walk_model) 2 [[0]; [3]] [0; 1] (KRoot 0) (-1) cat_first_ok)
    as (p & E & _); [discriminate|reflexivity|].
  exists p. split; [exact E|]. split; [|left; eexists; reflexivity].
  destruct (C65_bootstrap_paths R R 0 0 cat_first walk_model 2 [[0]; [3]] [0; 1] (KRoot 0) (-1) p cat_first_ok
    ltac:(discriminate) eq_refl E) as (H0 & H1 & _). cbv zeta in H0, H1.
  destruct (H1 1%nat 0%nat ltac:(lia) ltac:(cbn; lia)) as (a & k' & Ha & _ & ->).
  destruct (H0 a Ha) as (k'' & ->). reflexivity.
Qed.
