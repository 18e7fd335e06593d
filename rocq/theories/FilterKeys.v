(** C33: the random keys of the particle filter. *)
From Coq Require Import Reals List Arith Lia Lra.
From Verif Require Import XR Keys HmcModel WeightsModel WeightsSpec WeightsProofs McmcModel McmcSpec McmcProofs SmcSpec
  SmcProps FilterModel FilterSpec FilterProofs FilterProps.
Import ListNotations.
Open Scope R_scope.

(** two filters that differ only in their random draws, and agree on those
    with key [k] *)
Definition same_weights {X Tm} (F F' : pfilter X Tm) : Prop :=
  (forall x y t, initial_log_weight F x y t = initial_log_weight F' x y t)
  /\ forall x0 t0 x1 y1 t1, intermediate_log_weight F x0 t0 x1 y1 t1 = intermediate_log_weight F' x0 t0 x1 y1 t1.
Definition agree_at {X Tm} (c c' : key -> list xr -> nat -> list nat) (F F' : pfilter X Tm) (k : key) : Prop :=
  (forall lw n, c k lw n = c' k lw n)
  /\ (forall y t, initial_sample F y t k = initial_sample F' y t k)
  /\ forall x t0 y t1, proposal_sample F x t0 y t1 k = proposal_sample F' x t0 y t1 k.

(** draws that distinguish one key *)
Definition cat_key (k0 : key) (k : key) (lw : list xr) (n : nat) : list nat :=
  if key_eq_dec k k0 then
    match lw with
    | [Fin _; Fin _] => if Nat.eqb n 2 then [1; 1]%nat else cat_first k lw n
    | _ => cat_first k lw n
    end
  else cat_first k lw n.
Lemma cat_key_ok k0 : categorical_ok (cat_key k0).
Proof.
  intros k lw n L. unfold cat_key. destruct (key_eq_dec k k0); [|apply cat_first_ok, L].
  destruct lw as [|[r| | |] [|[r'| | |] [|z lw]]]; try apply (cat_first_ok k _ n L).
  destruct (Nat.eqb_spec n 2); [subst n|apply cat_first_ok, L].
  split; [reflexivity|]. split; [repeat constructor; lia|]. intros _.
  repeat constructor; exists r'; reflexivity.
Qed.

Definition num_filter (noise : key -> nat) : pfilter nat nat :=
  PFilter (fun _ _ k => match k with KSplit _ _ i => i | _ => 0%nat end)
          (fun _ _ _ => Fin 0)
          (fun x _ _ _ k => (x + noise k)%nat) (fun _ _ _ _ _ => Fin 0).
Definition mark (k0 k : key) : nat := if key_eq_dec k k0 then 10%nat else 0%nat.

Definition two_particles (k : key) : particles nat nat :=
  initiate_particles (num_filter (fun _ => 0%nat)) 2 k [0] 0%nat.

Lemma two_value k : value (two_particles k) = [[0; 1]%nat].
Proof. reflexivity. Qed.

Lemma two_ess k : nth 0 (ess (two_particles k)) NaN = Fin 2.
Proof.
  assert (O : lw_ok [Fin 0; Fin 0]).
  { split; [repeat (constructor; [right; exists 0; reflexivity|]); constructor|].
    apply Exists_cons_hd. exists 0. reflexivity. }
  change (ess_log_weight [Fin 0; Fin 0] = Fin 2). rewrite (ess_kish _ O).
  f_equal. unfold kish. cbn. rewrite exp_0. field.
Qed.

Lemma in_antichain l a b : antichain l -> In a l -> In b l -> a <> b -> incomparable a b.
Proof.
  intros H Ha Hb Hab. apply (In_nth _ _ (KRoot 0)) in Ha. apply (In_nth _ _ (KRoot 0)) in Hb.
  destruct Ha as (i & Hi & Ei), Hb as (j & Hj & Ej).
  destruct (Nat.lt_trichotomy i j) as [L|[L|L]].
  - rewrite <- Ei, <- Ej. apply H. lia.
  - exfalso. apply Hab. congruence.
  - apply incomparable_sym. rewrite <- Ei, <- Ej. apply H. lia.
Qed.

(** a step that resamples, computed *)
Lemma two_step c noise k0 k : 
  forall p', propagate_particle_filter 0%nat c (num_filter noise) (two_particles k0) [0] 1%nat k 2 true = Some p' ->
  categorical_ok c ->
  let inds := c k [Fin 0; Fin 0] 2%nat in
  value p' = [map (fun i => nth i [0; 1]%nat 0%nat) inds;
              map (fun xk => fst xk + noise (snd xk))%nat
                  (combine (map (fun i => nth i [0; 1]%nat 0%nat) inds) (split_keys k 2 0 2))].
Proof.
  intros p' E _ inds. unfold propagate_particle_filter in E.
  change (at_last (ess (two_particles k0))) with (Some (nth 0 (ess (two_particles k0)) NaN)) in E.
  rewrite two_ess in E.
  change (at_last (value (two_particles k0))) with (Some [0; 1]%nat) in E.
  cbn [length] in E.
  replace (xltb (Fin 2) (Fin (2 * INR 2))) with true in E by (symmetry; apply xltb_xlt; cbn; lra).
  injection E as <-. reflexivity.
Qed.

(** C33: a step that resamples cannot be described by a set of unrelated
    keys: whatever such set is given, other draws can be chosen for keys outside
    it such that the result changes. *)
Theorem C33_propagate_refuted :
  forall (k0 k : key) (draws : list key), antichain draws ->
  exists c c' (F F' : pfilter nat nat) p p',
  categorical_ok c /\ categorical_ok c' /\ same_weights F F' /\ Forall (agree_at c c' F F') draws
  /\ propagate_particle_filter 0%nat c F (two_particles k0) [0] 1%nat k 2 true = Some p
  /\ propagate_particle_filter 0%nat c' F' (two_particles k0) [0] 1%nat k 2 true = Some p'
  /\ value p <> value p'.
Proof.
  intros k0 k draws Hac.
  assert (Ex : forall c noise, categorical_ok c -> exists p,
     propagate_particle_filter 0%nat c (num_filter noise) (two_particles k0) [0] 1%nat k 2 true = Some p).
  { intros c noise Hc.
    destruct (propagate_ok 0%nat c Hc (num_filter noise) 2 0 (two_particles k0) [0] 1%nat k 2 true 0%nat)
      as (p & _ & _ & _ & E & _).
    - unfold shaped. cbn. repeat split; repeat constructor.
    - exists p. exact E. }
  destruct (in_dec key_eq_dec k draws) as [Hin|Hout].
  - set (k1 := KSplit k 2 0).
    assert (Hk1 : ~ In k1 draws).
    { intros H1. destruct (in_antichain draws k k1 Hac Hin H1) as [A _].
      - unfold k1. intros H. apply (f_equal kdepth) in H. cbn in H. lia.
      - apply A. constructor. constructor. }
    destruct (Ex cat_first (fun _ => 0%nat) cat_first_ok) as (p & E).
    destruct (Ex cat_first (mark k1) cat_first_ok) as (p' & E').
    exists cat_first, cat_first, (num_filter (fun _ => 0%nat)), (num_filter (mark k1)), p, p'.
    split; [exact cat_first_ok|]. split; [exact cat_first_ok|].
    split; [split; reflexivity|].
    split.
    { apply Forall_forall. intros x Hx. split; [reflexivity|]. split; [reflexivity|].
      intros. cbn. unfold mark. destruct (key_eq_dec x k1); [subst; contradiction|reflexivity]. }
    split; [exact E|]. split; [exact E'|].
    rewrite (two_step _ _ _ _ _ E cat_first_ok), (two_step _ _ _ _ _ E' cat_first_ok).
    change (cat_first k [Fin 0; Fin 0] 2) with [0; 0]%nat. cbn.
    unfold mark at 1. destruct (key_eq_dec (KSplit k 2 0) k1); [discriminate|unfold k1 in *; congruence].
  - destruct (Ex cat_first (fun _ => 0%nat) cat_first_ok) as (p & E).
    destruct (Ex (cat_key k) (fun _ => 0%nat) (cat_key_ok k)) as (p' & E').
    exists cat_first, (cat_key k), (num_filter (fun _ => 0%nat)), (num_filter (fun _ => 0%nat)), p, p'.
    split; [exact cat_first_ok|]. split; [apply cat_key_ok|]. split; [split; reflexivity|].
    split.
    { apply Forall_forall. intros x Hx. split; [|split; reflexivity].
      intros lw n. unfold cat_key. destruct (key_eq_dec x k); [subst; contradiction|reflexivity]. }
    split; [exact E|]. split; [exact E'|].
    rewrite (two_step _ _ _ _ _ E cat_first_ok), (two_step _ _ _ _ _ E' (cat_key_ok k)).
    change (cat_first k [Fin 0; Fin 0] 2) with [0; 0]%nat.
    unfold cat_key. destruct (key_eq_dec k k); [|congruence]. cbn. discriminate.
Qed.
Print Assumptions C33_propagate_refuted.

(** C33 without resampling: the step is determined by the proposals' draws with
    [n] unrelated keys. *)
Theorem C33_no_resampling_partial :
  forall (n : nat) (k : key), exists draws : list key, length draws = n /\ antichain draws
  /\ forall (X Tm : Type) (dx : X) c c' (F F' : pfilter X Tm) (T : nat) (p : particles X Tm) y t1 thr full,
     length (value p) = S T -> Forall (fun r => length r = n) (value p) -> length (ess p) = S T ->
     ~ xlt (nth T (ess p) NaN) (Fin (thr * INR n)) ->
     same_weights F F' ->
     Forall (fun k' => forall x t0 y t1, proposal_sample F x t0 y t1 k' = proposal_sample F' x t0 y t1 k') draws ->
     propagate_particle_filter dx c F p y t1 k thr full = propagate_particle_filter dx c' F' p y t1 k thr full.
Proof.
  intros n k. exists (split_keys k n 0 n). split; [apply split_keys_length|]. split.
  { intros i j Hij. rewrite split_keys_length in Hij. rewrite !split_keys_nth by lia.
    apply (split_incomparable k n i j); [lia|constructor..]. }
  intros X Tm dx c c' F F' T p y t1 thr full LV FV LE Hno [_ W] Hag.
  destruct p as [v lw ts ob es]. cbn [value ess] in *.
  destruct (last_split v T LV) as (v' & xl & -> & LV').
  destruct (last_split es T LE) as (es' & e & -> & LE').
  destruct (Forall_last _ _ _ FV) as [_ Lx]. cbn beta in Lx.
  rewrite (nth_last es' e NaN T LE') in Hno. apply xltb_nlt in Hno.
  unfold propagate_particle_filter. cbn [value log_weight times observed ess]. rewrite !at_last_app, Lx, Hno.
  cbn [value log_weight times observed ess]. rewrite !at_last_app.
  assert (Ep : forall t0, propose F xl t0 y t1 (split_keys k n 0 n) = propose F' xl t0 y t1 (split_keys k n 0 n)).
  { intros t0. unfold propose. apply map_ext_in. intros [a b] Hab. cbn. rewrite Forall_forall in Hag.
    apply Hag. apply in_combine_r in Hab. exact Hab. }
  assert (Ei : forall t0 x', increments F xl t0 x' y t1 = increments F' xl t0 x' y t1).
  { intros t0 x'. unfold increments. apply map_ext. intros [a b]. apply W. }
  destruct (at_last lw), (at_last ts); [|reflexivity..]. rewrite Ep, Ei. reflexivity.
Qed.
Print Assumptions C33_no_resampling_partial.

Lemma firstn_nth_eq {A} s (l l' : list A) : firstn s l = firstn s l' -> forall i d, (i < s)%nat -> nth i l d = nth i l' d.
Proof.
  revert l l'. induction s; intros l l' H i d Hi; [lia|].
  destruct l, l'; try discriminate; [reflexivity|]. cbn in H. injection H as -> H.
  destruct i; [reflexivity|]. cbn. apply IHs; [exact H|lia].
Qed.

Section Agree.
  Context {X Tm : Type}.
  Variables (dx : X) (c c' : key -> list xr -> nat -> list nat) (F F' : pfilter X Tm).
  Hypothesis W : same_weights F F'.

  Lemma filter_body_agree thr n m y t k : (forall k', derived k k' -> agree_at c c' F F' k') ->
    filter_body dx c F thr n m y t k = filter_body dx c' F' thr n m y t k.
  Proof.
    intros A. unfold filter_body, resample_row.
    rewrite (proj1 (A k (derived_refl k)) (m_lw m) (length (m_value m))).
    set (x0 := if xltb (m_ess m) (Fin (thr * INR n)) then _ else _).
    assert (Ep : propose F x0 (m_t m) y t (split_keys k (length (m_value m)) 0 (length (m_value m)))
               = propose F' x0 (m_t m) y t (split_keys k (length (m_value m)) 0 (length (m_value m)))).
    { unfold propose. apply map_ext_in. intros [a b] Hab. cbn. apply A. apply in_combine_r in Hab.
      unfold split_keys in Hab. apply in_map_iff in Hab. destruct Hab as (j & <- & _). repeat constructor. }
    rewrite Ep.
    assert (Ei : forall x1, increments F x0 (m_t m) x1 y t = increments F' x0 (m_t m) x1 y t).
    { intros x1. unfold increments. apply map_ext. intros [a b]. apply W. }
    rewrite Ei. reflexivity.
  Qed.

  Lemma filter_scan_agree thr n : forall s yts ks m,
    (forall j k', (j < s)%nat -> derived (nth j ks (KRoot 0)) k' -> agree_at c c' F F' k') ->
    firstn s (filter_scan dx c F thr n m yts ks) = firstn s (filter_scan dx c' F' thr n m yts ks).
  Proof.
    induction s; intros yts ks m A; [reflexivity|].
    destruct yts as [|[y t] yts]; [reflexivity|]. destruct ks as [|k ks]; [reflexivity|]. cbn [filter_scan firstn].
    rewrite (filter_body_agree thr n m y t k) by (intros k'; apply (A 0%nat k'); lia).
    f_equal. apply IHs. intros j k' Hj. apply (A (S j) k'). lia.
  Qed.

  Lemma initiate_agree n k y t : (forall k', derived k k' -> agree_at c c' F F' k') ->
    initiate_particles F n k y t = initiate_particles F' n k y t.
  Proof.
    intros A. unfold initiate_particles.
    assert (E : map (fun k => initial_sample F y t k) (split_keys k n 0 n)
              = map (fun k => initial_sample F' y t k) (split_keys k n 0 n)).
    { apply map_ext_in. intros k' Hk. apply A. unfold split_keys in Hk. apply in_map_iff in Hk.
      destruct Hk as (j & <- & _). repeat constructor. }
    rewrite E.
    assert (E2 : forall l, map (fun x => initial_log_weight F x y t) l = map (fun x => initial_log_weight F' x y t) l).
    { intros l. apply map_ext. intros x. apply W. }
    rewrite E2. reflexivity.
  Qed.
End Agree.

(** C33 between steps: the initial sample and the steps of a run have
    unrelated keys, and what is recorded up to time [s] depends only on draws
    with keys derived from the first of them. *)
Theorem C33_between_steps_partial :
  forall (T : nat) (k : key), exists (k0 : key) (ks : nat -> key),
  antichain (k0 :: map ks (seq 0 T))
  /\ forall (X Tm : Type) (dx : X) c c' (F F' : pfilter X Tm) (n : nat) (ys : list obs) (ts : list Tm) thr s p p',
     length ys = S T -> length ts = S T -> (s <= T)%nat ->
     same_weights F F' ->
     (forall k', derived k0 k' -> agree_at c c' F F' k') ->
     (forall j k', (j < s)%nat -> derived (ks j) k' -> agree_at c c' F F' k') ->
     run_particle_filter dx c F n ys ts k thr = Some p ->
     run_particle_filter dx c' F' n ys ts k thr = Some p' ->
     forall s', (s' <= s)%nat -> nth s' (value p) [] = nth s' (value p') []
                              /\ nth s' (log_weight p) [] = nth s' (log_weight p') [].
Proof.
  intros T k. exists (KSplit k 2 1), (fun j => KSplit (KSplit k 2 0) T j). split.
  { apply pairwise_antichain. constructor.
    - apply Forall_forall. intros x Hx. apply in_map_iff in Hx. destruct Hx as (j & <- & _).
      apply (split_incomparable k 2 1 0); [discriminate|repeat constructor..].
    - generalize (seq_NoDup T 0). induction (seq 0 T) as [|a l IH]; intros Hnd; cbn; [constructor|].
      inversion Hnd as [|? ? Hn1 Hn2]; subst. constructor; [|apply IH, Hn2].
      apply Forall_forall. intros x Hx. apply in_map_iff in Hx. destruct Hx as (j & <- & Hj).
      apply (split_incomparable (KSplit k 2 0) T a j); [intros ->; contradiction|repeat constructor..]. }
  intros X Tm dx c c' F F' n ys ts thr s p p' Ly Lt Hs W A0 A1 E E' s' Hs'.
  destruct ys as [|y0 ys]; [discriminate|]. destruct ts as [|t0 ts]; [discriminate|].
  cbn [run_particle_filter] in E, E'.
  rewrite <- (initiate_agree c c' F F' W n (KSplit k 2 1) y0 t0 A0) in E'.
  assert (LT : length ys = T) by (cbn in Ly; lia).
  set (m := Marginal (nth 0 (value (initiate_particles F n (KSplit k 2 1) y0 t0)) [])
                     (nth 0 (log_weight (initiate_particles F n (KSplit k 2 1) y0 t0)) []) t0 y0
                     (nth 0 (ess (initiate_particles F n (KSplit k 2 1) y0 t0)) NaN)).
  unfold run_from in E, E'.
  change (last_marginal (initiate_particles F n (KSplit k 2 1) y0 t0)) with (Some m) in E, E'.
  change (observed (initiate_particles F n (KSplit k 2 1) y0 t0)) with (Rows [y0]) in E, E'.
  assert (G := filter_scan_agree dx c c' F F' W thr (length (m_value m)) s (combine ys ts)
                 (split_keys (KSplit k 2 0) T 0 T) m).
  rewrite LT in E, E'.
  set (ms := filter_scan dx c F thr (length (m_value m)) m (combine ys ts) (split_keys (KSplit k 2 0) T 0 T)) in *.
  set (ms' := filter_scan dx c' F' thr (length (m_value m)) m (combine ys ts) (split_keys (KSplit k 2 0) T 0 T)) in *.
  injection E as <-. injection E' as <-. cbn [value log_weight].
  assert (G' := firstn_nth_eq s ms ms' (G ltac:(intros j k' Hj; rewrite split_keys_nth by lia; apply A1; exact Hj))).
  destruct s' as [|s'].
  - split; reflexivity.
  - cbn [app nth].
    change [] with (m_value (Marginal (@nil X) (@nil xr) t0 y0 NaN)) at 1 2.
    change (@nil xr) with (m_lw (Marginal (@nil X) (@nil xr) t0 y0 NaN)).
    rewrite !map_nth, !(G' s') by lia. split; reflexivity.
Qed.
Print Assumptions C33_between_steps_partial.

(** the same for a run for marginals over two times *)
Lemma two_run c noise k p :
  run_particle_filter 0%nat c (num_filter noise) 2 [[0]; [0]] [0; 1]%nat k 2 = Some p ->
  let kk := KSplit (KSplit k 2 0) 1 0 in
  nth 1 (value p) [] = map (fun xk => fst xk + noise (snd xk))%nat
    (combine (map (fun i => nth i [0; 1]%nat 0%nat) (c kk [Fin 0; Fin 0] 2%nat)) (split_keys kk 2 0 2)).
Proof.
  intros E kk. cbn [run_particle_filter] in E. unfold run_from in E.
  change (last_marginal (initiate_particles (num_filter noise) 2 (KSplit k 2 1) [0] 0%nat))
    with (Some (Marginal [0; 1]%nat [Fin 0; Fin 0] 0%nat [0] (nth 0 (ess (two_particles (KSplit k 2 1))) NaN))) in E.
  rewrite two_ess in E. injection E as <-.
  cbn [value app nth filter_scan combine split_keys map seq length].
  unfold filter_body. cbv zeta. cbn [m_ess m_value m_lw m_t m_y length].
  assert (Hb : Rltb 2 (2 * (1 + 1)) = true) by (apply Rltb_true; lra).
  cbn. rewrite Hb. reflexivity.
Qed.

Theorem C33_marginals_refuted :
  forall (k : key) (draws : list key), antichain draws ->
  exists c c' (F F' : pfilter nat nat) p p',
  categorical_ok c /\ categorical_ok c' /\ same_weights F F' /\ Forall (agree_at c c' F F') draws
  /\ run_particle_filter 0%nat c F 2 [[0]; [0]] [0; 1]%nat k 2 = Some p
  /\ run_particle_filter 0%nat c' F' 2 [[0]; [0]] [0; 1]%nat k 2 = Some p'
  /\ value p <> value p'.
Proof.
  intros k draws Hac.
  assert (Ex : forall c noise, categorical_ok c -> exists p,
     run_particle_filter 0%nat c (num_filter noise) 2 [[0]; [0]] [0; 1]%nat k 2 = Some p).
  { intros c noise Hc.
    destruct (C43_marginals nat nat 0%nat 0%nat c (num_filter noise) 2 [[0]; [0]] [0; 1]%nat k 2 Hc)
      as (p & E & _); [discriminate|reflexivity|]. exists p. exact E. }
  set (kk := KSplit (KSplit k 2 0) 1 0).
  destruct (in_dec key_eq_dec kk draws) as [Hin|Hout].
  - set (k1 := KSplit kk 2 0).
    assert (Hk1 : ~ In k1 draws).
    { intros H1. destruct (in_antichain draws kk k1 Hac Hin H1) as [A _].
      - unfold k1. intros H. apply (f_equal kdepth) in H. cbn in H. lia.
      - apply A. constructor. constructor. }
    destruct (Ex cat_first (fun _ => 0%nat) cat_first_ok) as (p & E).
    destruct (Ex cat_first (mark k1) cat_first_ok) as (p' & E').
    exists cat_first, cat_first, (num_filter (fun _ => 0%nat)), (num_filter (mark k1)), p, p'.
    split; [exact cat_first_ok|]. split; [exact cat_first_ok|].
    split; [split; reflexivity|].
    split.
    { apply Forall_forall. intros x Hx. split; [reflexivity|]. split; [reflexivity|].
      intros. cbn. unfold mark. destruct (key_eq_dec x k1); [subst; contradiction|reflexivity]. }
    split; [exact E|]. split; [exact E'|].
    intros Heq. apply (f_equal (fun l => nth 1 l [])) in Heq. revert Heq.
    rewrite (two_run _ _ _ _ E), (two_run _ _ _ _ E'). fold kk.
    change (cat_first kk [Fin 0; Fin 0] 2) with [0; 0]%nat. cbn.
    unfold mark at 1. destruct (key_eq_dec (KSplit kk 2 0) k1); [discriminate|unfold k1 in *; congruence].
  - destruct (Ex cat_first (fun _ => 0%nat) cat_first_ok) as (p & E).
    destruct (Ex (cat_key kk) (fun _ => 0%nat) (cat_key_ok kk)) as (p' & E').
    exists cat_first, (cat_key kk), (num_filter (fun _ => 0%nat)), (num_filter (fun _ => 0%nat)), p, p'.
    split; [exact cat_first_ok|]. split; [apply cat_key_ok|]. split; [split; reflexivity|].
    split.
    { apply Forall_forall. intros x Hx. split; [|split; reflexivity].
      intros lw n. unfold cat_key. destruct (key_eq_dec x kk); [subst; contradiction|reflexivity]. }
    split; [exact E|]. split; [exact E'|].
    intros Heq. apply (f_equal (fun l => nth 1 l [])) in Heq. revert Heq.
    rewrite (two_run _ _ _ _ E), (two_run _ _ _ _ E'). fold kk.
    change (cat_first kk [Fin 0; Fin 0] 2) with [0; 0]%nat.
    unfold cat_key. destruct (key_eq_dec kk kk); [|congruence]. cbn. discriminate.
Qed.
Print Assumptions C33_marginals_refuted.

(** two particles of equal weight and threshold 0: no resampling *)
Example C33_example :
  length (value (two_particles (KRoot 0))) = 1%nat
  /\ Forall (fun r => length r = 2%nat) (value (two_particles (KRoot 0)))
  /\ ~ xlt (nth 0 (ess (two_particles (KRoot 0))) NaN) (Fin (0 * INR 2)).
Proof. split; [reflexivity|]. split; [repeat constructor|]. rewrite two_ess. cbn. lra. Qed.
