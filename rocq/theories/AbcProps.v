(** Theorems C28, C29, C30 and C56: ABC. *)
From Coq Require Import Reals List Bool Arith ZArith Lia Lra Sorted Permutation.
From Verif Require Import XR Keys LoopModel LoopSpec LoopProofs LoopProps McmcModel McmcSpec McmcProofs
  WeightsModel WeightsSpec WeightsProofs WeightsProps SmcModel SmcSpec SmcProps AbcModel AbcSpec AbcProofs AbcRun.
Import ListNotations.
Open Scope R_scope.

(** * C28 *)
Theorem C28_vanilla_run :
  forall (Data : Type) prior_sample prior_potential (likelihood_sample : vec -> key -> Data) distance thr n k,
  (1 <= n)%nat ->
  let chain := vanilla_run prior_sample prior_potential likelihood_sample distance thr n k in
  length chain = n
  /\ exists keys : list key, length keys = (3 * n)%nat /\ antichain keys
  /\ forall i s, nth_error chain i = Some s ->
       let k1 := nth (3 * i) keys (KRoot 0) in
       let k2 := nth (3 * i + 1) keys (KRoot 0) in
       let k3 := nth (3 * i + 2) keys (KRoot 0) in
       let v := prior_sample k1 in
       let dat := likelihood_sample v k3 in
       i_core s = ABC v (prior_potential v k2) dat (distance dat)
       /\ weight (i_lw s) = (if xltb (distance dat) thr then 1 else 0)
       /\ (finite (i_lw s) \/ i_lw s = NInf).
Proof.
  intros Data ps pp ls d thr n k Hn. cbv zeta. rewrite vanilla_run_eq by exact Hn.
  split; [rewrite map_length, seq_length; reflexivity|].
  exists (vanilla_keys n k). split; [apply vanilla_keys_length, Hn|]. split; [apply vanilla_keys_antichain|].
  intros i s Hs.
  assert (Hi : (i < n)%nat).
  { assert (H : nth_error (map (fun j => fst (iterate (vanilla_update ps pp ls d thr) j (vanilla_startup ps pp ls d thr k))) (seq 0 n)) i <> None) by congruence.
    apply nth_error_Some in H. rewrite map_length, seq_length in H. exact H. }
  rewrite nth_error_map in Hs.
  rewrite (nth_error_nth' (seq 0 n) 0%nat) in Hs by (rewrite seq_length; exact Hi).
  rewrite seq_nth in Hs by exact Hi. cbn [option_map] in Hs. inversion Hs; subst s; clear Hs.
  pose proof (vanilla_sample ps pp ls d thr n k i Hi) as E. cbv beta zeta in E.
  rewrite Nat.add_0_r in E. cbn [plus]. rewrite E. cbn [i_core i_lw].
  split; [reflexivity|]. unfold vanilla_log_weight. cbn [a_dist].
  destruct (xltb _ thr); cbn; [split; [apply exp_0|left; eexists; reflexivity] | split; [reflexivity|right; reflexivity]].
Qed.
Print Assumptions C28_vanilla_run.

Theorem C28_acceptance_rate :
  forall (Data : Type) (rate : R) (chain : list (isample (Data := Data))) (ds : list R),
  (1 <= length chain)%nat -> 0 <= rate <= 1 ->
  map (fun s => a_dist (i_core s)) chain = map Fin ds ->
  let out := clean_chain_ar rate chain in
  map (fun s => i_core s) out = map (fun s => i_core s) chain
  /\ (exists Q, is_quantile ds rate Q
        /\ map (fun s => weight (i_lw s)) out = map (fun d => if Rlt_dec d Q then 1 else 0) ds)
  /\ (forall m : nat, rate * INR (length chain) <= INR m ->
        (length (filter (fun s => xltb NInf (i_lw s)) out) <= m)%nat).
Proof.
  intros Data rate chain ds Hn Hr E. cbv zeta. unfold clean_chain_ar. rewrite E.
  assert (Ld : length ds = length chain).
  { assert (L : length (map (fun s => a_dist (i_core s)) chain) = length (map Fin ds)) by congruence.
    rewrite !map_length in L. auto. }
  split; [rewrite map_map; reflexivity|]. split.
  - destruct (quantile_spec ds rate ltac:(lia) Hr) as (Q & EQ & HQ). unfold fins in EQ. rewrite EQ.
    exists Q. split; [exact HQ|]. rewrite map_map. cbn [i_lw].
    rewrite <- (map_map (fun s => a_dist (i_core s)) (fun d => weight (if xltb d (Fin Q) then Fin 0 else NInf))).
    rewrite E, map_map. apply map_ext. intros d. cbn. unfold Rltb. destruct (Rlt_dec d Q); cbn; [apply exp_0|reflexivity].
  - intros m Hm. set (Q := quantile (map Fin ds) rate).
    assert (C : (count (fun d => xltb d Q) (map Fin ds) <= m)%nat).
    { apply count_quantile; rewrite map_length; [lia|]. rewrite Ld. nra. }
    rewrite <- E in C. unfold count in C.
    assert (X : forall l : list (isample (Data := Data)),
       length (filter (fun s => xltb NInf (i_lw s)) (map (fun s => ISample (i_core s) (if xltb (a_dist (i_core s)) Q then Fin 0 else NInf)) l))
       = length (filter (fun d => xltb d Q) (map (fun s => a_dist (i_core s)) l))).
    { induction l as [|s l IH]; [reflexivity|]. cbn [map filter i_lw].
      destruct (xltb (a_dist (i_core s)) Q) eqn:Y; [change (xltb NInf (Fin 0)) with true | change (xltb NInf NInf) with false];
        cbn [length]; rewrite IH; reflexivity. }
    rewrite X. exact C.
Qed.
Print Assumptions C28_acceptance_rate.

(** Three samples at distances 3, 1, 2 and rate 1/2: the quantile is 2, and the
    only sample weighted one is the one at distance 1. *)
Example C28_example :
  let s d := ISample (ABC (fun _ => 0) (Fin 0) tt (Fin d)) NInf in
  is_quantile [3; 1; 2] (/ 2) 2
  /\ map (fun d => if Rlt_dec d 2 then 1 else 0) [3; 1; 2] = [0; 1; 0]
  /\ map (fun x => a_dist (i_core x)) [s 3; s 1; s 2] = map Fin [3; 1; 2].
Proof.
  cbv zeta. split; [|split].
  - exists [1; 2; 3]. split; [apply perm_trans with [1; 3; 2]; [apply perm_swap|apply perm_skip, perm_swap]|].
    split; [repeat constructor; lra|]. exists 1%nat, 0. cbn. repeat split; try lra; lia.
  - cbn. destruct (Rlt_dec 3 2), (Rlt_dec 1 2), (Rlt_dec 2 2); try lra; reflexivity.
  - reflexivity.
Qed.

(** The weights of a run with threshold 1 when the simulated distances depend
    on the key. *)
Example C28_run_example :
  let chain := vanilla_run (fun _ _ => 0) (fun _ _ => Fin 0)
     (fun _ k => match k with KSplit _ 4 3 => 0 | _ => 5 end) Fin (Fin 1) 3 (KRoot 7) in
  map (fun s => a_dist (i_core s)) chain = [Fin 5; Fin 0; Fin 0] /\ map i_lw chain = [NInf; Fin 0; Fin 0].
Proof.
  cbv zeta. rewrite vanilla_run_eq by lia. cbn.
  assert (A : Rltb 5 1 = false) by (apply Rltb_false; lra). assert (B : Rltb 0 1 = true) by (apply Rltb_true; lra).
  unfold vanilla_log_weight. cbn. rewrite A, B. split; reflexivity.
Qed.

(** * C29 *)
Section C29.
  Context {Data : Type}.
  Variable categorical : key -> list xr -> nat -> list nat.
  Variable inner : xr -> (nat -> R) -> key -> abc_core (Data := Data) -> abc_core (Data := Data) * xr.
  Variable adapt_step : aensemble (Data := Data) -> (nat -> R) -> nat -> R.
  Variable next_threshold : aensemble (Data := Data) -> nat -> xr.
  Variable resample_threshold : R.
  Variable dflt : apart (Data := Data).
  Variable prior_potential : vec -> key -> xr.
  Variable likelihood_sample : vec -> key -> Data.
  Variable distance : Data -> xr.
  Hypothesis cat_ok : categorical_ok categorical.
  Notation update := (a_update categorical inner adapt_step next_threshold resample_threshold dflt).
  Notation startup := (a_startup adapt_step next_threshold prior_potential likelihood_sample distance).

  Lemma adapted_ess (E : aensemble (Data := Data)) (e : aextra) : adapted E e -> (forall p, In p E -> a_dist (q_core p) <> NaN) -> ae_thr e <> NaN ->
    forall m, count (fun p => xleb (a_dist (q_core p)) (ae_thr e)) E = m -> (1 <= m)%nat ->
    forall p, In p E -> q_ess p = Fin (INR m).
  Proof.
    intros A Nd Nt m Hm Hm1 p Hp. destruct (A p Hp) as (_ & _ & ->).
    apply (C23_ess_k_equal (map q_lw E) 0 m); auto.
    - intros x Hx. apply in_map_iff in Hx. destruct Hx as (q & <- & Hq). destruct (A q Hq) as (_ & -> & _).
      unfold a_log_weight. destruct (xltb _ _); auto.
    - rewrite <- Hm. unfold count.
      assert (B : forall p, In p E -> q_lw p = (if xleb (a_dist (q_core p)) (ae_thr e) then Fin 0 else NInf)).
      { intros q Hq. destruct (A q Hq) as (_ & -> & _). unfold a_log_weight.
        rewrite (xltb_negb _ _ Nt (Nd q Hq)). destruct (xleb _ _); reflexivity. }
      clear -B. induction E as [|q E IH]; [reflexivity|]. cbn [map filter]. rewrite (B q) by (left; auto).
      destruct (xleb _ _); cbn [length]; rewrite IH; auto; intros; apply B; right; auto.
  Qed.
End C29.

(** After [m] steps: every particle carries the current threshold; its weight is
    one if its distance is at most the threshold and zero otherwise; and the
    effective sample size is the number of particles of weight one. *)
Theorem C29_weights :
  forall (Data : Type) categorical inner adapt_step next_threshold rthr dflt
         prior_potential (likelihood_sample : vec -> key -> Data) distance thr0 vs k st m,
  let c := iterate (a_update categorical inner adapt_step next_threshold rthr dflt) m
             (a_startup adapt_step next_threshold prior_potential likelihood_sample distance thr0 vs k st) in
  let E := fst c in let thr := ae_thr (snd c) in
  (forall p, In p E -> q_thr p = thr)
  /\ (thr <> NaN -> (forall p, In p E -> a_dist (q_core p) <> NaN) ->
      (forall p, In p E -> q_lw p = Fin 0 \/ q_lw p = NInf)
      /\ (forall p, In p E -> weight (q_lw p) = (if xleb (a_dist (q_core p)) thr then 1 else 0))
      /\ (forall j, length (filter (fun p => xleb (a_dist (q_core p)) thr) E) = S j ->
           forall p, In p E -> q_ess p = Fin (INR (S j)))).
Proof.
  intros. cbv zeta.
  pose proof (iterate_adapted categorical inner adapt_step next_threshold rthr dflt prior_potential likelihood_sample distance thr0 vs k st m) as A.
  cbv zeta in A. fold c in A.
  split; [intros p Hp; apply (A p Hp)|]. intros Nt Nd. split; [|split].
  - intros p Hp. destruct (A p Hp) as (_ & -> & _). unfold a_log_weight. destruct (xltb _ _); auto.
  - intros p Hp. destruct (A p Hp) as (_ & -> & _). unfold a_log_weight. change (ae_thr (snd c)) with thr.
    rewrite (xltb_negb _ _ Nt (Nd p Hp)). destruct (xleb _ _); cbn; [apply exp_0|reflexivity].
  - intros j Hj p Hp. apply (adapted_ess (fst c) (snd c) A Nd Nt (S j) Hj ltac:(lia) p Hp).
Qed.
Print Assumptions C29_weights.

(** A particle of weight zero is not moved by a step that does not resample; a
    step that resamples only keeps copies of particles of weight one before
    moving them. *)
Theorem C29_dead_unmoved :
  forall (Data : Type) categorical inner adapt_step next_threshold rthr dflt (E : aensemble (Data := Data)) (e : aextra) i,
  categorical_ok categorical -> (i < length E)%nat ->
  let E' := fst (a_update categorical inner adapt_step next_threshold rthr dflt E e) in
  length E' = length E
  /\ (xltb (match E with [] => NaN | p :: _ => q_ess p end) (Fin (rthr * INR (length E))) = false ->
      q_lw (nth i E dflt) = NInf ->
      q_core (nth i E' dflt) = q_core (nth i E dflt) /\ q_alpha (nth i E' dflt) = q_alpha (nth i E dflt))
  /\ (xltb (match E with [] => NaN | p :: _ => q_ess p end) (Fin (rthr * INR (length E))) = true ->
      lw_ok (map q_lw E) ->
      exists p kk, In p E /\ finite (q_lw p)
        /\ q_core (nth i E' dflt) = fst (inner (ae_thr e) (ae_step e) kk (q_core p))).
Proof.
  intros Data cat inner ad nt rthr dflt E e i Ok Hi. cbv zeta.
  split; [apply a_update_length; auto|].
  destruct (nth_update cat inner ad nt rthr dflt Ok E e i Hi) as [E1 E2].
  rewrite E1, E2. rewrite (nth_moved cat inner rthr dflt Ok E e i Hi).
  assert (Crit : a_resample_criterion rthr E = xltb (match E with [] => NaN | p :: _ => q_ess p end) (Fin (rthr * INR (length E)))) by reflexivity.
  split.
  - intros F L. unfold a_resampled. rewrite Crit, F. unfold a_forward. rewrite L. cbn. auto.
  - intros T W.
    assert (Hr : In (nth i (a_resampled cat rthr dflt E e) dflt) (a_resampled cat rthr dflt E e))
      by (apply nth_In; rewrite a_resampled_length; auto).
    destruct (a_resampled_in cat rthr dflt Ok E e _ Hr) as (q & Hq & Ec & Ef & _ & Ez).
    rewrite Crit in *. destruct (Ez T) as [Elw _].
    exists q, (KSplit (ae_key e) (length E + 2) i). split; [exact Hq|]. split; [apply Ef; auto|].
    unfold a_forward. rewrite Elw, Ec. cbn. destruct (inner _ _ _ _). reflexivity.
Qed.
Print Assumptions C29_dead_unmoved.

(** Threshold 1 and three particles at distances 1/2, 1 and 2. *)
Example C29_example :
  let c := a_startup (fun _ s => s) (next_threshold_scheduled [Fin 1]) (fun _ _ => Fin 0) (fun v _ => v 0%nat) Fin
             (Fin 1) [fun _ => / 2; fun _ => 1; fun _ => 2] (KRoot 0) (fun _ => 1) in
  map (fun p => a_dist (q_core p)) (fst c) = [Fin (/ 2); Fin 1; Fin 2] /\ ae_thr (snd c) = Fin 1
  /\ map q_lw (fst c) = [Fin 0; Fin 0; NInf] /\ map q_ess (fst c) = [Fin (INR 2); Fin (INR 2); Fin (INR 2)].
Proof.
  cbv zeta. set (c := a_startup _ _ _ _ _ _ _ _ _).
  assert (K : ess_log_weight [Fin 0; Fin 0; NInf] = Fin (INR 2)).
  { apply (C23_ess_k_equal _ 0); [|reflexivity|lia]. intros x [<-|[<-|[<-|[]]]]; auto. }
  split; [reflexivity|]. split; [reflexivity|].
  unfold c, a_startup, a_adapt, a_prestart. cbn -[INR ess_log_weight]. unfold a_log_weight. cbn -[INR ess_log_weight].
  rewrite (proj2 (Rltb_false 1 (/ 2))), (proj2 (Rltb_false 1 1)), (proj2 (Rltb_true 1 2)), K by lra.
  split; reflexivity.
Qed.

(** Findings: a particle whose distance is NaN counts as within the threshold,
    and when no particle is within the threshold the effective sample size is
    NaN instead of 0, so the resampling test never fires. *)
Theorem C29_nan_distance_refuted :
  forall thr dat, let c := ABC (fun _ => 0) (Fin 0) (dat : unit) NaN in
  weight (a_log_weight thr c) = 1 /\ xleb (a_dist c) thr = false.
Proof. intros. cbv zeta. unfold a_log_weight. cbn. destruct thr; cbn; split; try apply exp_0; reflexivity. Qed.
Print Assumptions C29_nan_distance_refuted.

Theorem C29_extinct_refuted :
  exists (Data : Type) categorical inner adapt_step next_threshold rthr dflt
         prior_potential (likelihood_sample : vec -> key -> Data) distance thr0 vs k st,
  categorical_ok categorical /\
  let c := a_startup adapt_step next_threshold prior_potential likelihood_sample distance thr0 vs k st in
  vs <> [] /\ rthr = / 2
  /\ (forall p, In p (fst c) -> a_dist (q_core p) = Fin 2 /\ q_thr p = Fin 1 /\ q_lw p = NInf /\ q_ess p = NaN)
  /\ (forall m p, In p (fst (iterate (a_update categorical inner adapt_step next_threshold rthr dflt) m c)) ->
        a_dist (q_core p) = Fin 2 /\ q_lw p = NInf /\ q_ess p = NaN).
Proof.
  set (inner := fun (_ : xr) (_ : nat -> R) (_ : key) (c : abc_core (Data := unit)) => (ABC (fun _ => 0) (Fin 0) tt (Fin 0), Fin 1)).
  set (d := APart (ABC (fun _ => 0) (Fin 0) tt (Fin 2)) (Fin 1) (Fin 1) NInf NaN).
  set (nt := next_threshold_scheduled (Data := unit) [Fin 1]).
  exists unit, cat_first, inner, (fun _ s => s), nt, (/ 2), d,
    (fun _ _ => Fin 0), (fun _ _ => tt), (fun _ => Fin 2), (Fin 1), [fun _ => 0; fun _ => 1], (KRoot 0), (fun _ => 1).
  split; [exact cat_first_ok|]. cbv zeta.
  set (c := a_startup _ _ _ _ _ _ _ _ _).
  assert (Nt : forall l i, nt l i = Fin 1).
  { intros l i. unfold nt, next_threshold_scheduled. destruct i as [|[|i]]; reflexivity. }
  clearbody nt.
  assert (L12 : Rltb 1 2 = true) by (apply Rltb_true; lra).
  assert (Dead : ess_log_weight [NInf; NInf] = NaN) by (apply C23_all_dead; repeat constructor).
  assert (Inv : forall m, let r := iterate (a_update cat_first inner (fun _ s => s) nt (/ 2) d) m c in
     ae_thr (snd r) = Fin 1 /\ exists p q, fst r = [p; q]
     /\ forall x, In x [p; q] -> a_dist (q_core x) = Fin 2 /\ q_thr x = Fin 1 /\ q_lw x = NInf /\ q_ess x = NaN).
  { induction m as [|m IH]; cbv zeta.
    - cbn [iterate]. unfold c, a_startup, a_adapt, a_prestart. cbn -[ess_log_weight]. rewrite Nt.
      split; [reflexivity|].
      unfold a_log_weight. cbn -[ess_log_weight]. rewrite L12, Dead.
      eexists _, _. split; [reflexivity|]. intros x [<-|[<-|[]]]; cbn; auto.
    - cbn [iterate]. set (r := iterate _ m c) in *. destruct r as [E e]. cbn [fst snd] in *.
      destruct IH as (Et & p & q & -> & Hx). destruct (Hx p) as (P1 & P2 & P3 & P4); [left; auto|].
      destruct (Hx q) as (Q1 & Q2 & Q3 & Q4); [right; left; auto|].
      destruct e as [it ky rs th sp am]. cbn [ae_thr] in Et. subst th.
      unfold a_update, a_adapt, a_moved, a_resampled, a_resample_criterion. cbn [afirst_ess]. rewrite P4. cbn [xltb].
      unfold a_forward. cbn -[ess_log_weight]. rewrite P3, Q3. cbn -[ess_log_weight].
      rewrite Nt. unfold a_log_weight. rewrite P1, Q1. cbn -[ess_log_weight]. rewrite L12, Dead.
      split; [reflexivity|]. eexists _, _. split; [reflexivity|]. intros x [<-|[<-|[]]]; cbn; auto. }
  split; [discriminate|]. split; [reflexivity|]. split.
  - intros x Hxx. destruct (Inv 0%nat) as (_ & p & q & E & H). cbn [iterate] in E. rewrite E in Hxx. apply H, Hxx.
  - intros m x Hxx. destruct (Inv m) as (_ & p & q & E & H). rewrite E in Hxx. destruct (H x Hxx) as (A & B & C & D). auto.
Qed.
Print Assumptions C29_extinct_refuted.

(** * C30 *)
Section C30.
  Context {Data : Type}.
  Variable categorical : key -> list xr -> nat -> list nat.
  Variable normal : key -> nat -> R.
  Variable uniform : key -> R.
  Variable steps : nat.
  Variable adapt_step : aensemble (Data := Data) -> (nat -> R) -> nat -> R.
  Variable retain rthr : R.
  Variable dflt : apart (Data := Data).
  Variable prior_potential : vec -> key -> xr.
  Variable likelihood_sample : vec -> key -> Data.
  Variable distance : Data -> xr.
  Hypothesis cat_ok : categorical_ok categorical.
  Hypothesis unif_ok : forall k, 0 <= uniform k < 1.
  Hypothesis dist_ok : forall d, finite (distance d).
  Notation inner := (rwabc_inner normal prior_potential likelihood_sample distance uniform steps).
  Notation nt := (next_threshold_adaptive (Data := Data) retain).
  Notation update := (a_update categorical inner adapt_step nt rthr dflt).
  Notation startup := (a_startup adapt_step nt prior_potential likelihood_sample distance).

  Definition ainv (E : aensemble (Data := Data)) (e : aextra) : Prop :=
    adapted E e /\ finite (ae_thr e) /\ (forall p, In p E -> finite (a_dist (q_core p)))
    /\ (1 <= count (fun p => xleb (a_dist (q_core p)) (ae_thr e)) E)%nat.

  Lemma count_map {A B} (f : A -> B) (P : B -> bool) l : count P (map f l) = count (fun x => P (f x)) l.
  Proof. unfold count. induction l as [|x l IH]; [reflexivity|]. cbn. destruct (P (f x)); cbn; rewrite IH; reflexivity. Qed.

  Lemma count_pos {A} (P : A -> bool) l x : In x l -> P x = true -> (1 <= count P l)%nat.
  Proof.
    intros H Px. unfold count. assert (I : In x (filter P l)) by (apply filter_In; auto).
    destruct (filter P l); [inversion I|cbn; lia].
  Qed.

  (** [adapt] with a finite effective sample size establishes the invariant *)
  Lemma adapt_ainv prev new e ess : new <> [] -> afirst_ess new = Fin ess ->
    (forall p, In p new -> finite (a_dist (q_core p))) ->
    ainv (fst (a_adapt adapt_step nt prev new e)) (snd (a_adapt adapt_step nt prev new e)).
  Proof.
    intros Hne Hess Hf.
    assert (Fd : List.Forall finite (map (fun p => a_dist (q_core p)) new)).
    { rewrite Forall_map. apply Forall_forall. exact Hf. }
    assert (Ln : (1 <= length (map (fun p => a_dist (q_core p)) new))%nat) by (rewrite map_length; destruct new; [congruence|cbn; lia]).
    split; [apply adapt_adapted|]. unfold a_adapt. cbn [fst snd ae_thr].
    unfold next_threshold_adaptive. rewrite Hess. set (Q := quantile _ _).
    split; [|split].
    - unfold Q. destruct (quantile_finite _ (retain * ess / INR (length new)) Fd Ln) as (lo & hi & _ & _ & _ & ->). eexists; reflexivity.
    - intros p Hp. apply in_map_iff in Hp. destruct Hp as (q & <- & Hq). cbn. auto.
    - destruct (quantile_survivor _ (retain * ess / INR (length new)) Fd Ln) as (d & Hd & Hle). fold Q in Hle.
      rewrite count_map. cbn [q_core]. apply in_map_iff in Hd. destruct Hd as (q & <- & Hq).
      apply (count_pos _ new q); auto.
  Qed.

  Lemma startup_ainv thr0 vs k st : vs <> [] ->
    ainv (fst (startup thr0 vs k st)) (snd (startup thr0 vs k st)).
  Proof.
    intros Hv.
    set (E := a_prestart prior_potential likelihood_sample distance thr0 vs k).
    set (e0 := AExtra 0 (KSplit (KSplit k (length vs + 1) (length vs)) (length vs + 1) (length vs)) true thr0 st (Fin 1)).
    assert (A : ainv (fst (a_adapt adapt_step nt E E e0)) (snd (a_adapt adapt_step nt E E e0))).
    { apply adapt_ainv with (ess := INR (length vs)).
      - destruct vs; [congruence|discriminate].
      - destruct vs; [congruence|reflexivity].
      - intros p Hp. unfold E, a_prestart in Hp. apply in_map_iff in Hp. destruct Hp as (x & <- & _). cbn. apply dist_ok. }
    exact A.
  Qed.

  Lemma moved_dist E e p : In p (a_moved categorical inner rthr dflt E e) ->
    exists r, In r (a_resampled categorical rthr dflt E e)
      /\ q_ess p = q_ess r
      /\ (q_core p = q_core r \/ (xltb (a_dist (q_core p)) (ae_thr e) = true /\ finite (a_dist (q_core p)))).
  Proof.
    unfold a_moved. intros H. apply in_map_iff in H. destruct H as ([i r] & <- & Hr). apply in_combine_r in Hr.
    exists r. split; [exact Hr|]. cbn [fst snd]. unfold a_forward. destruct (xltb NInf (q_lw r)); [|auto].
    pose proof (rwabc_inner_core normal prior_potential likelihood_sample distance uniform unif_ok steps (ae_thr e) (ae_step e)
             (KSplit (ae_key e) (length E + 2) i) (q_core r)) as I. cbv zeta in I.
    destruct (rwabc_inner _ _ _ _ _ _ _ _ _ _) as [c al]. cbn [fst] in I. cbn. split; [reflexivity|].
    destruct I as [->|[I1 [dat I2]]]; [left; reflexivity|right]. split; [exact I1|]. rewrite I2. apply dist_ok.
  Qed.

  Lemma xltb_xleb a b : xltb a b = true -> xleb a b = true.
  Proof.
    destruct a, b; cbn; auto; try discriminate. rewrite Rltb_true, Rleb_true. lra.
  Qed.

  (** the effective sample size in [E]: the number alive *)
  Lemma ainv_ess E e p : ainv E e -> In p E ->
    q_ess p = Fin (INR (count (fun p => xleb (a_dist (q_core p)) (ae_thr e)) E)).
  Proof.
    intros (A & [t Et] & Fd & C) Hp.
    apply (adapted_ess E e A); auto.
    - intros q Hq. destruct (Fd q Hq) as [r ->]. discriminate.
    - rewrite Et. discriminate.
  Qed.

  Lemma afirst_in (E : aensemble (Data := Data)) : E <> [] -> exists p, In p E /\ afirst_ess E = q_ess p.
  Proof. destruct E as [|p E]; [congruence|]. intros _. exists p. cbn. auto. Qed.

  Lemma update_ainv E e : E <> [] -> ainv E e -> ainv (fst (update E e)) (snd (update E e)).
  Proof.
    intros Hne I.
    set (M := a_moved categorical inner rthr dflt E e).
    assert (Hm : M <> []).
    { intros X. assert (L : length M = length E) by (apply a_moved_length; auto). rewrite X in L. destruct E; [congruence|discriminate]. }
    assert (Ess : exists ess, afirst_ess M = Fin ess).
    { destruct (afirst_in M Hm) as (p & Hp & ->). destruct (moved_dist E e p Hp) as (r & Hr & -> & _).
      destruct (a_resampled_in categorical rthr dflt cat_ok E e r Hr) as (q & Hq & _ & _ & F & T).
      destruct (a_resample_criterion rthr E) eqn:C.
      - destruct (T eq_refl) as [_ ->]. eexists; reflexivity.
      - rewrite (F eq_refl). rewrite (ainv_ess E e q I Hq). eexists; reflexivity. }
    destruct Ess as [ess Hess].
    unfold a_update. apply adapt_ainv with (ess := ess); auto.
    intros p Hp. destruct (moved_dist E e p Hp) as (r & Hr & _ & [->|[_ F]]); [|exact F].
    destruct (a_resampled_in categorical rthr dflt cat_ok E e r Hr) as (q & Hq & -> & _).
    destruct I as (_ & _ & Fd & _). apply Fd, Hq.
  Qed.

  Lemma iterate_ainv thr0 vs k st m : vs <> [] ->
    let c := iterate update m (startup thr0 vs k st) in ainv (fst c) (snd c) /\ length (fst c) = length vs.
  Proof.
    intros Hv. cbv zeta. split.
    - induction m; [apply startup_ainv; auto|]. cbn [iterate]. apply update_ainv; auto.
      intros X. assert (L : length (fst (iterate update m (startup thr0 vs k st))) = length vs).
      { rewrite a_iterate_length by auto. apply a_startup_length. }
      rewrite X in L. destruct vs; [congruence|discriminate].
    - rewrite a_iterate_length by auto. apply a_startup_length.
  Qed.

  Lemma count_all {A} (P : A -> bool) l : (forall x, In x l -> P x = true) -> count P l = length l.
  Proof.
    unfold count. induction l as [|x l IH]; intros H; [reflexivity|]. cbn. rewrite H by (left; auto). cbn. f_equal.
    apply IH. intros; apply H; right; auto.
  Qed.

  Lemma count_nth_le {A B} (P : A -> bool) (Q : B -> bool) (l : list A) (l' : list B) da db :
    length l = length l' -> (forall i, (i < length l)%nat -> P (nth i l da) = true -> Q (nth i l' db) = true) ->
    (count P l <= count Q l')%nat.
  Proof.
    unfold count. revert l'. induction l as [|a l IH]; intros [|b l'] L H; try discriminate; [cbn; lia|].
    cbn [filter]. specialize (IH l' ltac:(cbn in L; lia)).
    assert (IH' : (length (filter P l) <= length (filter Q l'))%nat).
    { apply IH. intros i Hi. apply (H (S i)). cbn. lia. }
    destruct (P a) eqn:X.
    - pose proof (H 0%nat ltac:(cbn; lia) X) as Y. cbn in Y. rewrite Y. cbn. lia.
    - destruct (Q b); cbn; lia.
  Qed.

  (** one step does not increase the threshold *)
  Lemma update_threshold E e : E <> [] -> ainv E e -> 0 <= retain <= 1 ->
    1 <= rthr * INR (length E) * (1 - retain) ->
    xleb (ae_thr (snd (update E e))) (ae_thr e) = true.
  Proof.
    intros Hne I Hret Hbig.
    set (M := a_moved categorical inner rthr dflt E e).
    assert (LM : length M = length E) by (apply a_moved_length; auto).
    assert (LE : (1 <= length E)%nat) by (destruct E; [congruence|cbn; lia]).
    assert (Hm : M <> []) by (intros X; rewrite X in LM; cbn in LM; lia).
    destruct I as (A & [t Et] & Fd & Cpos) eqn:EI. assert (I' : ainv E e) by exact I. clear EI.
    unfold a_update, a_adapt. cbn [snd ae_thr ae_iter]. fold M. unfold next_threshold_adaptive. rewrite LM.
    assert (FM : List.Forall finite (map (fun p => a_dist (q_core p)) M)).
    { rewrite Forall_map. apply Forall_forall. intros p Hp.
      destruct (moved_dist E e p Hp) as (r & Hr & _ & [->|[_ F]]); [|exact F].
      destruct (a_resampled_in categorical rthr dflt cat_ok E e r Hr) as (q & Hq & -> & _). apply Fd, Hq. }
    assert (LQ : (1 <= length (map (fun p => a_dist (q_core p)) M))%nat) by (rewrite map_length; lia).
    assert (Nn : 1 <= INR (length E)) by (change 1 with (INR 1); apply le_INR; lia).
    assert (Alive : forall p, In p E -> finite (q_lw p) -> xleb (a_dist (q_core p)) (ae_thr e) = true).
    { intros p Hp Fp. destruct (A p Hp) as (_ & E1 & _). rewrite E1 in Fp. unfold a_log_weight in Fp.
      destruct (Fd p Hp) as [dp Ed]. rewrite Et, Ed in *. cbn in *.
      destruct (Rltb t dp) eqn:X; [destruct Fp; discriminate|]. apply Rltb_false in X. apply Rleb_true. exact X. }
    destruct (afirst_in M Hm) as (p0 & Hp0 & ->). destruct (moved_dist E e p0 Hp0) as (r0 & Hr0 & -> & _).
    destruct (a_resampled_in categorical rthr dflt cat_ok E e r0 Hr0) as (q0 & Hq0 & _ & _ & Fls & Tru).
    destruct (a_resample_criterion rthr E) eqn:Crit.
    - (* resampled: everybody is within the threshold *)
      destruct (Tru eq_refl) as [_ ->].
      assert (Ok : lw_ok (map q_lw E)).
      { split.
        - rewrite Forall_map. apply Forall_forall. intros p Hp. destruct (A p Hp) as (_ & -> & _). unfold a_log_weight.
          destruct (xltb _ _); [left; reflexivity|right; eexists; reflexivity].
        - unfold count in Cpos. destruct (filter _ E) as [|p l] eqn:X; [cbn in Cpos; lia|].
          assert (Hp : In p (filter (fun p => xleb (a_dist (q_core p)) (ae_thr e)) E)) by (rewrite X; left; auto).
          apply filter_In in Hp. destruct Hp as [Hp Hx]. apply Exists_exists. exists (q_lw p).
          split; [apply in_map; exact Hp|]. destruct (A p Hp) as (_ & -> & _). unfold a_log_weight.
          destruct (Fd p Hp) as [dp Ed]. rewrite Et, Ed in *. cbn in *. apply Rleb_true in Hx.
          destruct (Rltb t dp) eqn:Y; [apply Rltb_true in Y; lra|eexists; reflexivity]. }
      apply (quantile_at_most _ _ (ae_thr e) (length E - 1)); auto; [exists t; auto| |].
      + rewrite count_map, count_all; [lia|].
        intros p Hp. destruct (moved_dist E e p Hp) as (r & Hr & _ & [->|[X _]]); [|apply xltb_xleb, X].
        destruct (a_resampled_in categorical rthr dflt cat_ok E e r Hr) as (q & Hq & -> & Al & _).
        apply Alive; auto.
      + rewrite map_length, LM, minus_INR by lia. cbn [INR].
        replace (retain * INR (length E) / INR (length E)) with retain by (field; lra). nra.
    - rewrite (Fls eq_refl). rewrite (ainv_ess E e q0 I' Hq0).
      set (m := count (fun p => xleb (a_dist (q_core p)) (ae_thr e)) E) in *.
      unfold a_resample_criterion in Crit.
      destruct (afirst_in E Hne) as (p1 & Hp1 & E1). rewrite E1, (ainv_ess E e p1 I' Hp1) in Crit. fold m in Crit.
      cbn in Crit. apply Rltb_false in Crit.
      assert (Hm1 : 1 <= INR m) by (change 1 with (INR 1); apply le_INR; lia).
      apply (quantile_at_most _ _ (ae_thr e) (m - 1)); auto; [exists t; auto| |].
      + rewrite count_map. assert (m <= count (fun p => xleb (a_dist (q_core p)) (ae_thr e)) M)%nat; [|lia].
        apply (count_nth_le _ _ E M dflt dflt); [lia|]. intros i Hi Hx.
        unfold M. rewrite (nth_moved categorical inner rthr dflt cat_ok E e i Hi).
        unfold a_resampled, a_resample_criterion. rewrite E1, (ainv_ess E e p1 I' Hp1). fold m. cbn [xltb].
        rewrite (proj2 (Rltb_false _ _) Crit).
        unfold a_forward. destruct (xltb NInf (q_lw (nth i E dflt))); [|exact Hx].
        pose proof (rwabc_inner_core normal prior_potential likelihood_sample distance uniform unif_ok steps (ae_thr e) (ae_step e)
             (KSplit (ae_key e) (length E + 2) i) (q_core (nth i E dflt))) as J. cbv zeta in J.
        destruct (rwabc_inner _ _ _ _ _ _ _ _ _ _) as [c al]. cbn [fst] in J. cbn.
        destruct J as [->|[J _]]; [exact Hx|apply xltb_xleb, J].
      + rewrite map_length, LM, minus_INR by lia. cbn [INR].
        assert (Hr : retain * INR m <= INR m - 1) by nra.
        assert (H0 : 0 <= retain * INR m) by nra.
        replace (retain * INR m / INR (length E) * (INR (length E) - 1))
          with (retain * INR m - retain * INR m / INR (length E)) by (field; lra).
        assert (0 <= retain * INR m / INR (length E)).
        { apply Rmult_le_pos; [lra|]. apply Rlt_le, Rinv_0_lt_compat. lra. }
        lra.
  Qed.
End C30.

(** With RandomWalkABC inside, and an ensemble large enough that
    [1 <= ess_threshold_resample * n * (1 - ess_threshold_retain)] (at least 20
    particles for the defaults), the recorded thresholds never increase.  Missing
    for the full property: small ensembles, for which it is false. *)
Theorem C30_nonincreasing_partial :
  forall (Data : Type) categorical normal uniform steps adapt_step retain rthr dflt
         prior_potential (likelihood_sample : vec -> key -> Data) distance thr0 vs k st max_iter talpha,
  categorical_ok categorical -> (forall k, 0 <= uniform k < 1) -> (forall d, finite (distance d)) ->
  vs <> [] -> 0 <= retain <= 1 -> 1 <= rthr * INR (length vs) * (1 - retain) ->
  nonincreasing (a_thresholds
    (a_run categorical (rwabc_inner normal prior_potential likelihood_sample distance uniform steps)
       adapt_step (next_threshold_adaptive retain) rthr dflt max_iter talpha
       (a_startup adapt_step (next_threshold_adaptive retain) prior_potential likelihood_sample distance thr0 vs k st))).
Proof.
  intros Data cat normal uniform steps ad retain rthr dflt pp ls dist thr0 vs k st mi ta Ok U D Hv Hr Hbig.
  unfold a_run. set (init := a_startup _ _ _ _ _ _ _ _ _). set (upd := a_update _ _ _ _ _ _).
  destruct (C01_run_is_while_loop _ _ (fun (_ : aensemble) e => xleb (ae_alpha_mean e) (Fin ta) || (mi <=? ae_iter e)%nat) upd init mi)
    as (m & (_ & Hrun) & _).
  rewrite Hrun. intros i Hi. unfold a_thresholds in *. rewrite map_map in *. rewrite map_length, seq_length in Hi.
  set (f := fun j => match fst (iterate upd j init) with [] => NaN | p :: _ => q_thr p end).
  assert (Nth : forall j, (j < S m)%nat -> nth j (map f (seq 0 (S m))) NaN = f j).
  { intros j Hj. rewrite (nth_indep _ NaN (f 0%nat)) by (rewrite map_length, seq_length; lia).
    rewrite map_nth, seq_nth by lia. reflexivity. }
  rewrite !Nth by lia.
  assert (Inv : forall j, ainv (fst (iterate upd j init)) (snd (iterate upd j init)) /\ length (fst (iterate upd j init)) = length vs).
  { intros j. apply (iterate_ainv cat normal uniform steps ad retain rthr dflt pp ls dist Ok U D thr0 vs k st j Hv). }
  assert (T : forall j, f j = ae_thr (snd (iterate upd j init)) /\ fst (iterate upd j init) <> []).
  { intros j. unfold f. destruct (Inv j) as [(A & _) L].
    destruct (fst (iterate upd j init)) as [|p E] eqn:X.
    - exfalso. cbn in L. destruct vs; [congruence|discriminate].
    - split; [|discriminate]. apply (A p). left; reflexivity. }
  rewrite (proj1 (T (S i))), (proj1 (T i)). cbn [iterate].
  apply update_threshold; auto.
  - apply T.
  - apply Inv.
  - rewrite (proj2 (Inv i)). exact Hbig.
Qed.
Print Assumptions C30_nonincreasing_partial.

Lemma quantile_pair a b q : a <= b -> 0 <= q < 1 -> quantile [Fin a; Fin b] q = Fin (a * (1 - q) + b * q).
Proof.
  intros L Hq. unfold quantile. cbn [existsb isnan orb length xsort fold_right xinsert xleb].
  rewrite (proj2 (Rleb_true a b) L).
  replace (q * (INR 2 - 1)) with q by (cbn; lra).
  assert (E : Int_part q = 0%Z) by (unfold Int_part; rewrite <- (tech_up q 1); [reflexivity|cbn; lra|cbn; lra]).
  rewrite E. replace (q - 0) with q by (cbn; lra).
  destruct (Req_EM_T q 0) as [->|]; cbn; apply (f_equal Fin); ring.
Qed.

(** The default parameters (retain 0.9, resample 0.5) with two particles: the
    first threshold is 0.9 and the second 0.9175. *)
Theorem C30_increase_refuted :
  exists (normal : key -> nat -> R) (uniform : key -> R) (dflt : apart (Data := R)),
  let pp := fun (_ : vec) (_ : key) => Fin 0 in
  let ls := fun (v : vec) (_ : key) => v 0%nat in
  let dist := fun d : R => Fin (Rabs d) in
  (forall k, 0 <= uniform k < 1)
  /\ a_thresholds (a_run cat_first (rwabc_inner normal pp ls dist uniform 1) (fun _ s => s)
       (next_threshold_adaptive 0.9) 0.5 dflt 1 0.01
       (a_startup (fun _ s => s) (next_threshold_adaptive 0.9) pp ls dist PInf [fun _ => 0; fun _ => 1] (KRoot 0) (fun _ => 1)))
     = [Fin 0.9; Fin 0.9175].
Proof.
  set (d := APart (ABC (fun _ => 0) (Fin 0) 0 (Fin 2)) (Fin 1) (Fin 1) NInf NaN).
  exists (fun _ _ => 0.85), (fun _ => 0), d. cbv zeta. split; [intros; lra|].
  set (pp := fun (_ : vec) (_ : key) => Fin 0).
  set (ls := fun (v : vec) (_ : key) => v 0%nat).
  set (dist := fun x : R => Fin (Rabs x)).
  set (inner := rwabc_inner _ _ _ _ _ _).
  unfold a_run. set (init := a_startup _ _ _ _ _ _ _ _ _). set (upd := a_update _ _ _ _ _ _).
  assert (Kish1 : ess_log_weight [Fin 0; NInf] = Fin (INR 1)).
  { apply (C23_ess_k_equal _ 0); [|reflexivity|lia]. intros x [<-|[<-|[]]]; auto. }
  assert (R0 : Rabs 0 = 0) by apply Rabs_R0. assert (R1 : Rabs 1 = 1) by (apply Rabs_right; lra).
  assert (I0 : exists e, init = ([APart (ABC (fun _ => 0) (Fin 0) 0 (Fin 0)) (Fin 1) (Fin 0.9) (Fin 0) (Fin (INR 1));
                       APart (ABC (fun _ => 1) (Fin 0) 1 (Fin 1)) (Fin 1) (Fin 0.9) NInf (Fin (INR 1))], e)
       /\ ae_thr e = Fin 0.9 /\ ae_iter e = 0%nat /\ ae_step e = (fun _ => 1) /\ ae_alpha_mean e = Fin 1).
  { unfold init, a_startup, a_adapt, a_prestart.
    cbn [length seq combine map fst snd next_threshold_adaptive afirst_ess q_ess q_core a_dist dist ls q_alpha].
    unfold dist, ls. rewrite R0, R1.
    replace (0.9 * INR 2 / INR 2) with 0.9 by (cbn; lra).
    rewrite (quantile_pair 0 1 0.9) by lra. replace (0 * (1 - 0.9) + 1 * 0.9) with 0.9 by lra.
    unfold a_log_weight. cbn [a_dist xltb].
    assert (X1 : Rltb 0.9 0 = false) by (apply Rltb_false; lra). assert (X2 : Rltb 0.9 1 = true) by (apply Rltb_true; lra).
    rewrite X1, X2, Kish1. eexists. split; [reflexivity|]. cbn -[INR]. split; [auto|]. split; [auto|]. split; [auto|].
    unfold a_alpha_mean. cbn. destruct (Req_EM_T 1 0); [lra|]. f_equal. lra. }
  destruct I0 as (e & I0 & Et & Ei & Es & Ea).
  assert (Run : run_loop (fun (_ : aensemble (Data := R)) e0 => xleb (ae_alpha_mean e0) (Fin 0.01) || (1 <=? ae_iter e0)%nat) upd init 1
       = [fst init; fst (upd (fst init) (snd init))]).
  { unfold run_loop, while_loop_stacked, while_loop_stacked_raw. cbn [seq scan].
    unfold update_kernel, update_cond. cbn [plus Nat.leb fst snd].
    rewrite I0. cbn [snd]. rewrite Ea, Ei. cbn [xleb Nat.leb]. rewrite (proj2 (Rleb_false 1 0.01)) by lra. reflexivity. }
  rewrite Run. unfold a_thresholds. rewrite I0. cbn [fst snd map q_thr]. f_equal.
  unfold upd, a_update, a_moved, a_resampled, a_resample_criterion.
  cbn [afirst_ess q_ess length xltb].
  rewrite (proj2 (Rltb_false (INR 1) (0.5 * INR 2))) by (cbn; lra).
  cbn [seq combine map fst snd].
  unfold a_forward. cbn [q_lw xltb q_core q_thr q_ess].
  assert (Inn : forall kk, fst (inner (ae_thr e) (ae_step e) kk (ABC (fun _ => 0) (Fin 0) 0 (Fin 0))) =
            ABC (fun _ => 0 + sqrt 1 * 0.85) (Fin 0) (0 + sqrt 1 * 0.85) (Fin (Rabs (0 + sqrt 1 * 0.85)))).
  { intros kk. unfold inner, rwabc_inner. cbn [fst iterate].
    unfold abc_update, mcmc_update, abc_always, abc_proposal, metropolis_correct, abc_acceptance.
    cbn [fst snd rkey iter par core alpha a_dist a_prior a_value threshold stepsize]. unfold pp. rewrite Es, Et. unfold dist, ls. cbv beta.
    assert (S1 : 0 + sqrt 1 * 0.85 = 0.85) by (rewrite sqrt_1; lra).
    cbn [xltb]. rewrite (proj2 (Rltb_true (Rabs (0 + sqrt 1 * 0.85)) 0.9)) by (rewrite S1, Rabs_right; lra).
    cbn [xopp xadd xexp xbool xmul xmin xleb].
    rewrite (proj2 (Rleb_true 1 (exp (- 0 + 0) * 1))) by (replace (- 0 + 0) with 0 by lra; rewrite exp_0; lra).
    cbn [clean_alpha isnan xltb]. rewrite (proj2 (Rltb_true 0 1)) by lra. reflexivity. }
  specialize (Inn (KSplit (ae_key e) (2 + 2) 0)).
  destruct (inner _ _ _ _) as [c al]. cbn [fst] in Inn. subst c.
  unfold a_adapt. cbn [fst map ae_iter next_threshold_adaptive afirst_ess q_ess q_core a_dist length q_thr].
  replace (Rabs (0 + sqrt 1 * 0.85)) with 0.85 by (rewrite sqrt_1, Rabs_right; lra).
  replace (0.9 * INR 1 / INR 2) with 0.45 by (cbn; lra).
  rewrite (quantile_pair 0.85 1 0.45) by lra. do 2 f_equal. lra.
Qed.
Print Assumptions C30_increase_refuted.

(** The hypotheses of the partial theorem hold for the default parameters and
    20 particles. *)
Example C30_example :
  1 <= 0.5 * INR (length (repeat (fun _ : nat => 0) 20)) * (1 - 0.9) /\ 0 <= 0.9 <= 1
  /\ categorical_ok cat_first.
Proof. split; [|split; [lra|exact cat_first_ok]]. rewrite repeat_length. rewrite INR_IZR_INZ. cbn. lra. Qed.

(** * C56: threshold schedules *)

(** The schedule assigned several times in a row *)
Fixpoint assign_all (h : list (option (list xr))) (s : asampler) : option asampler :=
  match h with
  | [] => Some s
  | v :: h => match set_threshold_schedule v s with Some s => assign_all h s | None => None end
  end.

(** [h] never clears twice in a row *)
Fixpoint no_double_clear (v : option (list xr)) (h : list (option (list xr))) : Prop :=
  match h with
  | [] => True
  | w :: h => (v <> None \/ w <> None) /\ no_double_clear w h
  end.

(** Assignments, none of them clearing a cleared schedule: the last one is in
    force, and with a schedule the number of iterations is its length. *)
Theorem C56_assignments_partial :
  forall m v h, no_double_clear v h ->
  exists s0 s, construct_asampler m v = Some s0 /\ assign_all h s0 = Some s
  /\ as_schedule s = Some (last h v)
  /\ (forall l, last h v = Some l -> as_max_iter s = length l)
  /\ (last h v = None -> as_max_iter s = m \/ as_max_iter s = 10000%nat
      \/ exists l, In (Some l) (v :: h) /\ as_max_iter s = length l).
Proof.
  intros m v h Hc.
  assert (H0 : exists s0, construct_asampler m v = Some s0 /\ as_schedule s0 = Some v
    /\ as_max_iter s0 = match v with Some l => length l | None => m end).
  { destruct v as [l|]; eexists; (split; [reflexivity|]); split; reflexivity. }
  destruct H0 as (s0 & E0 & Hs0 & Hm0). exists s0.
  assert (G : forall h v s0, no_double_clear v h -> as_schedule s0 = Some v ->
    (forall l, v = Some l -> as_max_iter s0 = length l) ->
    exists s, assign_all h s0 = Some s /\ as_schedule s = Some (last h v)
    /\ (forall l, last h v = Some l -> as_max_iter s = length l)
    /\ (last h v = None -> as_max_iter s = as_max_iter s0 \/ as_max_iter s = 10000%nat
        \/ exists l, In (Some l) (v :: h) /\ as_max_iter s = length l)).
  { clear. induction h as [|w h IH]; intros v s0 Hc Hs Hl.
    - exists s0. repeat split; auto.
    - destruct Hc as [Hvw Hc]. cbn [assign_all].
      assert (L : forall d d' : option (list xr), last (w :: h) d = last h w).
      { intros d _. clear. revert w d. induction h as [|x h IH]; intros w d; [reflexivity|].
        change (last (x :: h) d = last (x :: h) w). rewrite !IH. reflexivity. }
      rewrite (L v v).
      assert (W : exists s1, set_threshold_schedule w s0 = Some s1 /\ as_schedule s1 = Some w
        /\ (forall l, w = Some l -> as_max_iter s1 = length l)
        /\ (w = None -> as_max_iter s1 = as_max_iter s0 \/ as_max_iter s1 = 10000%nat)).
      { destruct w as [l|]; cbn [set_threshold_schedule].
        - eexists. split; [reflexivity|]. split; [reflexivity|]. split; [|discriminate]. intros l' E. injection E as <-. reflexivity.
        - destruct v as [l|]; [|destruct Hvw; congruence]. rewrite Hs. eexists. split; [reflexivity|].
          split; [reflexivity|]. split; [discriminate|]. intros _. cbn [as_max_iter].
          destruct (as_max_iter s0 =? length l)%nat; auto. }
      destruct W as (s1 & E1 & S1 & M1 & N1). rewrite E1.
      destruct (IH w s1 Hc S1 M1) as (s & E & Es & Em & En).
      exists s. split; [exact E|]. split; [exact Es|]. split; [exact Em|].
      intros Hn. destruct (En Hn) as [H|[H|(l & Hin & H)]]; [|auto|].
      + destruct w as [l|].
        * right; right. exists l. split; [right; left; reflexivity|]. rewrite H. apply M1. reflexivity.
        * destruct (N1 eq_refl) as [H'|H']; [left|right; left]; congruence.
      + right; right. exists l. split; [right; exact Hin|exact H]. }
  destruct (G h v s0 Hc Hs0) as (s & E & Es & Em & En).
  { intros l ->. exact Hm0. }
  exists s. split; [exact E0|]. split; [exact E|]. split; [exact Es|]. split; [exact Em|].
  intros Hn. destruct (En Hn) as [H|[H|H]]; auto.
  destruct v as [l|]; [right; right; exists l; split; [left; reflexivity|congruence]|left; congruence].
Qed.
Print Assumptions C56_assignments_partial.

Example C56_assignments_example : no_double_clear None [Some [Fin 3; Fin 2]; None; Some [Fin 1]].
Proof. cbn. repeat split; try (left; discriminate); right; discriminate. Qed.

(** Clearing a schedule replaces the number of iterations chosen at construction
    by the default. *)
Theorem C56_clearing_max_iter_refuted :
  forall m l, exists s0 s, construct_asampler m None = Some s0 /\ as_max_iter s0 = m
  /\ assign_all [Some l; None] s0 = Some s /\ as_max_iter s = 10000%nat.
Proof.
  intros m l. eexists _, _. split; [reflexivity|]. split; [reflexivity|].
  cbn. rewrite Nat.eqb_refl. split; reflexivity.
Qed.
Print Assumptions C56_clearing_max_iter_refuted.

Theorem C56_schedule_followed_partial :
  forall (Data : Type) categorical inner adapt_step rthr dflt
         prior_potential (likelihood_sample : vec -> key -> Data) distance thr0 vs k st talpha (l : list xr)
         max_iter v h s0 s,
  categorical_ok categorical -> vs <> [] -> l <> [] ->
  construct_asampler max_iter v = Some s0 -> assign_all h s0 = Some s -> as_schedule s = Some (Some l) ->
  exists m, (m <= length l)%nat /\
  a_thresholds
    (a_run categorical inner adapt_step (next_threshold_scheduled l) rthr dflt (as_max_iter s) talpha
       (a_startup adapt_step (next_threshold_scheduled l) prior_potential likelihood_sample distance thr0 vs k st))
  = firstn (S m) (l ++ [last l NaN]).
Proof.
  intros Data cat inner ad rthr dflt pp ls dist thr0 vs k st ta l mi v h s0 s Ok Hv Hl Hc Ha Hs.
  assert (Hm : as_max_iter s = length l).
  { assert (W : forall v s s', set_threshold_schedule v s = Some s' -> forall l, as_schedule s' = Some (Some l) -> as_max_iter s' = length l).
    { intros [a|] x x' E a' Ea; cbn in E; [injection E as <-; cbn in *; injection Ea as <-; reflexivity|].
      destruct (as_schedule x) as [[b|]|]; [|discriminate|]; injection E as <-; discriminate. }
    assert (H0 : forall l, as_schedule s0 = Some (Some l) -> as_max_iter s0 = length l) by (apply (W _ _ _ Hc)).
    clear - Ha Hs H0 W. revert s0 Ha H0. induction h as [|w h IH]; intros s0 Ha H0; cbn in Ha.
    - injection Ha as <-. apply H0, Hs.
    - destruct (set_threshold_schedule w s0) as [s1|] eqn:E; [|discriminate]. apply (IH s1 Ha). apply (W _ _ _ E). }
  rewrite Hm. clear v h s0 s Hc Ha Hs Hm mi.
  unfold a_run. set (init := a_startup _ _ _ _ _ _ _ _ _). set (upd := a_update _ _ _ _ _ _).
  destruct (C01_run_is_while_loop _ _ (fun (_ : aensemble) e => xleb (ae_alpha_mean e) (Fin ta) || (length l <=? ae_iter e)%nat) upd init (length l))
    as (m & ((Hm & _) & Hrun) & _).
  exists m. split; [exact Hm|]. rewrite Hrun. unfold a_thresholds. rewrite map_map.
  assert (T : forall j, match fst (iterate upd j init) with [] => NaN | p :: _ => q_thr p end = nth j l (last l NaN)).
  { intros j.
    assert (L : length (fst (iterate upd j init)) = length vs).
    { unfold upd. rewrite a_iterate_length by auto. apply a_startup_length. }
    assert (H : forall p, In p (fst (iterate upd j init)) -> q_thr p = nth j l (last l NaN)).
    { destruct j.
      - intros p Hp. cbn [iterate] in Hp. unfold init, a_startup, a_adapt in Hp. cbn [fst] in Hp.
        apply in_map_iff in Hp. destruct Hp as (q & <- & _). reflexivity.
      - intros p Hp. cbn [iterate] in Hp. unfold upd in Hp at 1. unfold a_update, a_adapt in Hp. cbn [fst] in Hp.
        apply in_map_iff in Hp. destruct Hp as (q & <- & _). cbn [q_thr ae_iter].
        unfold upd. rewrite a_iterate_iter. unfold init, a_startup, a_adapt. cbn [snd ae_iter].
        unfold next_threshold_scheduled. rewrite Nat.add_0_r. reflexivity. }
    destruct (fst (iterate upd j init)) as [|p E]; [destruct vs; [congruence|discriminate]|]. apply H. left; reflexivity. }
  rewrite (map_ext _ _ T).
  apply nth_ext with (d := NaN) (d' := NaN).
  - rewrite map_length, seq_length, firstn_length, app_length. cbn [length]. lia.
  - intros i Hi. rewrite map_length, seq_length in Hi.
    rewrite (nth_indep _ NaN (nth 0 l (last l NaN))) by (rewrite map_length, seq_length; lia).
    rewrite (map_nth (fun j => nth j l (last l NaN))), seq_nth by lia. cbn [plus].
    assert (F : forall (a : list xr) n i, (i < n)%nat -> nth i (firstn n a) NaN = nth i a NaN).
    { clear. induction a as [|x a IH]; intros [|n] [|i] H; try lia; try reflexivity. cbn. apply IH. lia. }
    rewrite F by lia.
    destruct (Nat.lt_ge_cases i (length l)) as [G|G].
    + rewrite app_nth1 by lia. apply nth_indep. exact G.
    + rewrite app_nth2 by lia. rewrite nth_overflow by lia. replace (i - length l)%nat with 0%nat by lia. reflexivity.
Qed.
Print Assumptions C56_schedule_followed_partial.

(** A full run records the last threshold of the schedule twice: with schedule
    [[3; 2]] and acceptance probabilities above the termination value the recorded
    thresholds are 3, 2, 2. *)
Theorem C56_schedule_repeated_refuted :
  exists (inner : xr -> (nat -> R) -> key -> abc_core (Data := R) -> abc_core (Data := R) * xr) (dflt : apart (Data := R)) init,
  init = a_startup (fun _ s => s) (next_threshold_scheduled [Fin 3; Fin 2]) (fun _ _ => Fin 0) (fun v _ => v 0%nat) (fun x => Fin x)
           (Fin 3) [fun _ => 0; fun _ => 1] (KRoot 0) (fun _ => 1)
  /\ a_thresholds (a_run cat_first inner (fun _ s => s) (next_threshold_scheduled [Fin 3; Fin 2]) 0.5 dflt 2 0.01 init)
     = [Fin 3; Fin 2; Fin 2].
Proof.
  set (inner := fun (_ : xr) (_ : nat -> R) (_ : key) (c : abc_core (Data := R)) => (c, Fin 1)).
  set (d := APart (ABC (fun _ => 0) (Fin 0) 0 (Fin 2)) (Fin 1) (Fin 1) NInf NaN).
  eexists inner, d, _. split; [reflexivity|].
  set (nt := next_threshold_scheduled (Data := R) [Fin 3; Fin 2]).
  set (init := a_startup _ _ _ _ _ _ _ _ _).
  assert (Kish2 : ess_log_weight [Fin 0; Fin 0] = Fin (INR 2)).
  { apply (C23_ess_k_equal _ 0); [|reflexivity|lia]. intros x [<-|[<-|[]]]; auto. }
  set (E t := [APart (ABC (fun _ => 0) (Fin 0) 0 (Fin 0)) (Fin 1) (Fin t) (Fin 0) (Fin (INR 2));
              APart (ABC (fun _ => 1) (Fin 0) 1 (Fin 1)) (Fin 1) (Fin t) (Fin 0) (Fin (INR 2))] : aensemble (Data := R)).
  assert (AM : forall t, a_alpha_mean (E t) (E t) = Fin 1).
  { intros t. unfold a_alpha_mean, E. cbn. destruct (Req_EM_T (1 + 1) 0); [lra|]. f_equal. lra. }
  assert (Lw : forall t, 2 <= t -> Rltb t 0 = false /\ Rltb t 1 = false) by (intros t Ht; split; apply Rltb_false; lra).
  assert (I0 : exists e, init = (E 3, e) /\ ae_iter e = 0%nat /\ ae_alpha_mean e = Fin 1).
  { unfold init, a_startup, a_adapt, a_prestart. cbn [length seq combine map fst snd nt next_threshold_scheduled ae_iter nth].
    unfold a_log_weight. cbn [q_core a_dist xltb]. destruct (Lw 3) as [-> ->]; [lra|]. rewrite Kish2.
    eexists. split; [reflexivity|]. split; [reflexivity|]. cbn [ae_alpha_mean]. apply (AM 3). }
  destruct I0 as (e & I0 & Ei & Ea).
  assert (Upd : forall t e, exists e', a_update cat_first inner (fun _ s => s) nt 0.5 d (E t) e
        = (E 2, e') /\ ae_iter e' = S (ae_iter e) /\ ae_alpha_mean e' = Fin 1).
  { intros t e0.
    assert (Crit : a_resample_criterion 0.5 (E t) = false).
    { unfold a_resample_criterion, E. cbn [afirst_ess q_ess length xltb]. apply Rltb_false. cbn. lra. }
    unfold a_update, a_moved, a_resampled. rewrite Crit.
    assert (Nt : forall l i, nt l (S i) = Fin 2) by (intros l [|[|i]]; reflexivity).
    unfold a_adapt. cbn [ae_iter]. rewrite Nt.
    unfold E. cbn -[ess_log_weight INR xltb]. unfold a_log_weight. cbn -[ess_log_weight INR].
    destruct (Lw 2) as [-> ->]; [lra|]. rewrite Kish2.
    eexists. split; [reflexivity|]. split; [reflexivity|]. cbn [ae_alpha_mean]. apply (AM t). }
  destruct (Upd 3 e) as (e1 & U1 & Ei1 & Ea1). destruct (Upd 2 e1) as (e2 & U2 & Ei2 & Ea2).
  unfold a_run. set (upd := a_update _ _ _ _ _ _) in *.
  unfold run_loop, while_loop_stacked, while_loop_stacked_raw. cbn [seq scan].
  unfold update_kernel, update_cond. cbn [plus Nat.leb fst snd].
  rewrite I0. cbn [fst snd]. rewrite Ea, Ei. cbn [xleb Nat.leb]. rewrite (proj2 (Rleb_false 1 0.01)) by lra. cbn [orb negb].
  rewrite U1. cbn [fst snd plus Nat.leb]. rewrite Ea1, Ei1, Ei. cbn [xleb Nat.leb]. rewrite (proj2 (Rleb_false 1 0.01)) by lra. cbn [orb negb].
  rewrite U2. reflexivity.
Qed.
Print Assumptions C56_schedule_repeated_refuted.

(** Clearing a schedule that is already cleared raises. *)
Theorem C56_clearing_twice_refuted :
  forall m, exists s, construct_asampler m None = Some s /\ set_threshold_schedule None s = None.
Proof. intros m. eexists. split; reflexivity. Qed.
Print Assumptions C56_clearing_twice_refuted.
