(** Properties C50 and C85-C87: the epidemic, predator-prey and Ricker simulators. *)
From Coq Require Import Reals ZArith List Arith Bool Lra Lia FinFun.
From Verif Require Import XR Keys LoopModel LoopSpec LoopProps McmcProofs SimModel SimSpec SimProofs.
Import ListNotations.
Open Scope R_scope.

(** C50, one step: the waiting time is exponential with the total rate, up to
    the buffer, and the event is an infection in the proportion of its rate. *)
Theorem C50_step :
  forall (uniform : key -> R) (beta gamma n : R) (s i : Z) (t : R) (k : key),
  (forall k, 0 <= uniform k < 1) -> 0 < beta -> 0 < gamma -> 0 < n -> (0 <= s)%Z -> (0 < i)%Z ->
  let total := infection_rate beta n s i + removal_rate gamma i in
  exists c dt t_key e_key k',
    sir_step uniform beta gamma n ((s, i), Fin t) k = ((c, Fin (t + dt)), k')
    /\ exp (- total * dt) = 1 / 1000000 + uniform t_key
    /\ (1 - uniform e_key <= infection_rate beta n s i / total -> (0 < s)%Z /\ c = (s - 1, i + 1)%Z)
    /\ (infection_rate beta n s i / total < 1 - uniform e_key -> c = (s, i - 1)%Z)
    /\ NoDup [t_key; e_key; k'].
Proof.
  intros uniform beta gamma n s i t k Hu Hb Hg Hn Hs Hi total.
  destruct (sir_jump uniform beta gamma n Hu Hb Hg Hn s i (Fin t) k Hs Hi) as [Pr [c [E D]]].
  fold total in Pr, E, D. rewrite E. cbn [xadd].
  exists c, (- ln (exponential_sample_buffer + uniform (KSplit k 3 0)) / total),
    (KSplit k 3 0), (KSplit k 3 1), (KSplit k 3 2).
  split; [reflexivity|]. split; [|split; [|split]].
  - replace (- total * (- ln (exponential_sample_buffer + uniform (KSplit k 3 0)) / total))
      with (ln (exponential_sample_buffer + uniform (KSplit k 3 0))) by (field; lra).
    rewrite exp_ln; [reflexivity|]. specialize (Hu (KSplit k 3 0)). unfold exponential_sample_buffer. lra.
  - intro G. apply (Rmult_le_compat_l total) in G; [|lra].
    replace (total * (infection_rate beta n s i / total)) with (infection_rate beta n s i) in G by (field; lra).
    destruct D as [[_ D]|[D _]]; [exact D|]. lra.
  - intro G. apply (Rmult_lt_compat_l total) in G; [|lra].
    replace (total * (infection_rate beta n s i / total)) with (infection_rate beta n s i) in G by (field; lra).
    destruct D as [[D _]|[_ D]]; [|exact D]. lra.
  - repeat constructor; cbn; intuition discriminate.
Qed.
Print Assumptions C50_step.

Example C50_step_example : forall k, exists t k',
  sir_step (fun _ => 1 / 2) 2 1 4 ((3, 1)%Z, Fin 0) k = (((2, 2)%Z, Fin t), k') /\ 0 < t.
Proof.
  intro k.
  destruct (C50_step (fun _ => 1 / 2) 2 1 4 3 1 0 k) as [c [dt [tk [ek [k' [E [T [I _]]]]]]]]; try lra; try lia; [intro; lra|].
  unfold infection_rate, removal_rate in *. destruct I as [_ Ec]; [lra|]. subst c.
  exists (0 + dt), k'. split; [exact E|].
  assert (exp (- (2 * 3 * 1 / 4 + 1 * 1) * dt) < exp 0) by (rewrite T, exp_0; lra).
  apply exp_lt_inv in H. lra.
Qed.

(** C50: the simulated states are a path of infections and removals that stops
    at extinction or at the limit; what follows in the arrays is padding. *)
Theorem C50_path :
  forall (uniform : key -> R) (beta gamma n : R) (init : Z * Z) (key0 : key) (max_iter : nat),
  (forall k, 0 <= uniform k < 1) -> 0 < beta -> 0 < gamma -> 0 < n -> nonneg init ->
  let '(times, si) := sir_simulate uniform init beta gamma n key0 max_iter in
  exists ts l,
    si = l ++ repeat init (max_iter - length l)
    /\ times = ts ++ repeat (Fin 0) (max_iter - length l)
    /\ length ts = length l /\ (length l <= max_iter)%nat
    /\ path sir_event init l
    /\ Forall finite ts
    /\ (length l = max_iter \/ snd (last l init) = 0%Z)
    /\ (Z.of_nat (length l) <= 2 * fst init + snd init)%Z.
Proof.
  intros uniform beta gamma n init key0 m Hu Hb Hg Hn Hi. unfold sir_simulate.
  set (cond := fun (c : (Z * Z) * xr) (_ : key) => Z.ltb 0 (snd (fst c))).
  set (body := sir_step uniform beta gamma n).
  destruct (C01_raw_stack_padding _ _ cond body ((init, Fin 0), key0) m) as [k [[Hk [Hc Hs]] [E _]]].
  rewrite E. rewrite !map_app, !map_repeat. cbn [fst snd].
  exists (map snd (iterates body ((init, Fin 0), key0) k)), (map fst (iterates body ((init, Fin 0), key0) k)).
  assert (Al := sir_along uniform beta gamma n Hu Hb Hg Hn init key0 Hi k Hc).
  assert (Ev := sir_events uniform beta gamma n Hu Hb Hg Hn init key0 Hi k Hc).
  rewrite !map_length, !iterates_length.
  split; [reflexivity|]. split; [reflexivity|]. split; [reflexivity|]. split; [exact Hk|].
  split; [|split; [|split]].
  - change init with (fst (fst ((init, Fin 0), key0))) at 1. apply path_map. apply path_iterates. exact Ev.
  - apply Forall_forall. intros x Hx. apply in_map_iff in Hx. destruct Hx as [[c t] [Ex Hx]]. cbn in Ex. subst t.
    unfold iterates in Hx. apply in_map_iff in Hx. destruct Hx as [j [Ex Hj]]. apply in_seq in Hj.
    destruct (Al (S j) ltac:(lia)) as [_ [_ F]]. fold body in F. rewrite Ex in F. exact F.
  - destruct Hs as [Hs|Hs]; [left; exact Hs|right].
    assert (L : last (map fst (iterates body ((init, Fin 0), key0) k)) init = fst (fst (iterate body k ((init, Fin 0), key0)))).
    { destruct k as [|k]; [reflexivity|]. unfold iterates. rewrite seq_S, !map_app. cbn [map]. rewrite last_last. reflexivity. }
    rewrite L. unfold cond in Hs. apply Z.ltb_ge in Hs.
    destruct (Al k ltac:(lia)) as [[_ N] _]. fold body in N. lia.
  - destruct (Al k ltac:(lia)) as [[N1 N2] [T _]]. lia.
Qed.
Print Assumptions C50_path.

(** C50: along the path counts stay non-negative and neither the susceptible
    nor the population ever increase. *)
Theorem C50_counts :
  forall (init : Z * Z) (l : list (Z * Z)), nonneg init -> path sir_event init l ->
  Forall nonneg l /\ path (fun a b => (fst b <= fst a)%Z /\ (fst b + snd b <= fst a + snd a)%Z) init l.
Proof.
  intros init l. revert init. induction l as [|c l IH]; intros init Hi Hp; [split; [constructor|exact I]|].
  destruct Hp as [H1 H2].
  assert (Hc : nonneg c) by (unfold nonneg in *; inversion H1; subst; cbn in *; lia).
  destruct (IH c Hc H2) as [I1 I2]. split; [constructor; assumption|]. split; [|exact I2].
  inversion H1; subst; cbn; lia.
Qed.
Print Assumptions C50_counts.

Example C50_counts_example : path sir_event (1, 1)%Z [(0, 2); (0, 1); (0, 0)]%Z.
Proof.
  cbn [path]. split; [apply (infection 1 1); lia|]. split; [apply (removal 0 2); lia|].
  split; [apply (removal 0 1); lia|exact I].
Qed.

(** C50: with a limit of at least twice the susceptible plus the infected the
    simulation always reaches extinction. *)
Theorem C50_extinction :
  forall (uniform : key -> R) (beta gamma n : R) (init : Z * Z) (key0 : key) (max_iter : nat),
  (forall k, 0 <= uniform k < 1) -> 0 < beta -> 0 < gamma -> 0 < n -> nonneg init ->
  (2 * fst init + snd init <= Z.of_nat max_iter)%Z ->
  exists l, path sir_event init l /\ snd (last l init) = 0%Z
    /\ firstn (length l) (snd (sir_simulate uniform init beta gamma n key0 max_iter)) = l.
Proof.
  intros uniform beta gamma n init key0 m Hu Hb Hg Hn Hi Hm.
  unfold sir_simulate.
  set (cond := fun (c : (Z * Z) * xr) (_ : key) => Z.ltb 0 (snd (fst c))).
  set (body := sir_step uniform beta gamma n).
  destruct (C01_raw_stack_padding _ _ cond body ((init, Fin 0), key0) m) as [k [[Hk [Hc Hs]] [E _]]].
  rewrite E. cbn [snd]. rewrite map_app.
  assert (Al := sir_along uniform beta gamma n Hu Hb Hg Hn init key0 Hi k Hc).
  assert (Ev := sir_events uniform beta gamma n Hu Hb Hg Hn init key0 Hi k Hc).
  exists (map fst (iterates body ((init, Fin 0), key0) k)).
  split; [|split].
  - change init with (fst (fst ((init, Fin 0), key0))) at 1. apply path_map. apply path_iterates. exact Ev.
  - assert (L : last (map fst (iterates body ((init, Fin 0), key0) k)) init = fst (fst (iterate body k ((init, Fin 0), key0)))).
    { destruct k as [|k]; [reflexivity|]. unfold iterates. rewrite seq_S, !map_app. cbn [map]. rewrite last_last. reflexivity. }
    rewrite L. destruct (Al k ltac:(lia)) as [[N1 N2] [T _]]. fold body in N1, N2, T.
    destruct Hs as [Hs|Hs]; [subst m; lia|]. unfold cond in Hs. apply Z.ltb_ge in Hs. lia.
  - rewrite firstn_app, Nat.sub_diag. cbn [firstn]. rewrite app_nil_r. apply firstn_all.
Qed.
Print Assumptions C50_extinction.

Example C50_extinction_example : exists l, path sir_event (2, 1)%Z l /\ snd (last l (2, 1)%Z) = 0%Z
  /\ firstn (length l) (snd (sir_simulate (fun _ => 1 / 2) (2, 1)%Z 2 1 3 (KRoot 7) 5)) = l.
Proof. apply C50_extinction; try lra; [intro; lra|split; cbn; lia|cbn; lia]. Qed.

(** C50: when no uniform exceeds one minus the buffer, the times start from 0
    and never decrease along the path.  Missing: larger uniforms. *)
Theorem C50_times_partial :
  forall (uniform : key -> R) (beta gamma n : R) (init : Z * Z) (key0 : key) (max_iter : nat),
  (forall k, 0 <= uniform k <= 1 - 1 / 1000000) -> 0 < beta -> 0 < gamma -> 0 < n -> nonneg init ->
  exists ts pad, fst (sir_simulate uniform init beta gamma n key0 max_iter) = ts ++ pad
    /\ path no_earlier (Fin 0) ts
    /\ (length ts = max_iter
        \/ exists c, nth_error (init :: snd (sir_simulate uniform init beta gamma n key0 max_iter)) (length ts) = Some c
                     /\ snd c = 0%Z).
Proof.
  intros uniform beta gamma n init key0 m Hu Hb Hg Hn Hi.
  assert (Hu1 : forall k, 0 <= uniform k < 1) by (intro k; specialize (Hu k); lra).
  assert (Hu2 : forall k, uniform k <= 1 - exponential_sample_buffer) by (intro k; specialize (Hu k); unfold exponential_sample_buffer; lra).
  unfold sir_simulate.
  set (cond := fun (c : (Z * Z) * xr) (_ : key) => Z.ltb 0 (snd (fst c))).
  set (body := sir_step uniform beta gamma n).
  destruct (C01_raw_stack_padding _ _ cond body ((init, Fin 0), key0) m) as [k [[Hk [Hc Hs]] [E _]]].
  rewrite E. cbn [fst snd]. rewrite !map_app.
  assert (Al := sir_along uniform beta gamma n Hu1 Hb Hg Hn init key0 Hi k Hc).
  assert (Tm := sir_times uniform beta gamma n Hu1 Hb Hg Hn init key0 Hi k Hu2 Hc).
  exists (map snd (iterates body ((init, Fin 0), key0) k)), (map snd (repeat (init, Fin 0) (m - k))).
  split; [reflexivity|]. split.
  - change (Fin 0) with (snd (fst ((init, Fin 0), key0))) at 1. apply path_map. apply path_iterates. exact Tm.
  - rewrite map_length, iterates_length. destruct Hs as [Hs|Hs]; [left; exact Hs|right].
    exists (fst (fst (iterate body k ((init, Fin 0), key0)))). split.
    + destruct k as [|k]; [reflexivity|]. cbn [nth_error].
      rewrite nth_error_app1 by (rewrite map_length, iterates_length; lia).
      rewrite nth_error_map. rewrite (nth_error_nth' _ (init, Fin 0)) by (rewrite iterates_length; lia).
      rewrite iterates_nth by lia. reflexivity.
    + unfold cond in Hs. apply Z.ltb_ge in Hs. destruct (Al k ltac:(lia)) as [[_ N] _]. fold body in N. lia.
Qed.
Print Assumptions C50_times_partial.

Definition certain_removal (u : R) (k : key) : R := match k with KSplit _ _ 0 => u | _ => 0 end.

Lemma sir_removal_only u g : 0 < g -> 0 <= u < 1 -> forall (k : key),
  sir_step (certain_removal u) 1 g 1 ((0, 1)%Z, Fin 0) k
  = (((0, 0)%Z, Fin (0 + - ln (exponential_sample_buffer + u) / g)), KSplit k 3 2).
Proof.
  intros Hg Hu k.
  assert (Hu' : forall k, 0 <= certain_removal u k < 1) by (intro k'; destruct k' as [|k' n' [|j]]; cbn; lra).
  destruct (sir_jump (certain_removal u) 1 g 1 Hu' ltac:(lra) Hg ltac:(lra) 0 1 (Fin 0) k ltac:(lia) ltac:(lia)) as [_ [c [E D]]].
  rewrite E. cbn [xadd].
  assert (Ec : c = (0, 0)%Z) by (destruct D as [[_ [D _]]|[_ D]]; [lia|exact D]).
  rewrite Ec. do 4 f_equal. unfold infection_rate, removal_rate, certain_removal. field. lra.
Qed.

(** C50, refuted: a uniform within 1e-6 of one moves time backwards. *)
Theorem C50_times_refuted :
  exists (uniform : key -> R) (key0 : key), (forall k, 0 <= uniform k < 1)
    /\ exists t, fst (sir_simulate uniform (0, 1)%Z 1 1 1 key0 1) = [Fin t] /\ t < 0.
Proof.
  exists (certain_removal (1 - 1 / 2000000)), (KRoot 0). split.
  { intro k. destruct k as [|k n [|j]]; cbn; lra. }
  exists (0 + - ln (exponential_sample_buffer + (1 - 1 / 2000000)) / 1). split.
  - unfold sir_simulate, while_loop_stacked_raw. cbn [seq scan update_kernel update_cond fst snd].
    cbn [Nat.leb Nat.add Z.ltb Z.compare fst snd]. rewrite sir_removal_only by lra. reflexivity.
  - assert (H : ln 1 < ln (exponential_sample_buffer + (1 - 1 / 2000000)))
      by (apply ln_increasing; unfold exponential_sample_buffer; lra).
    rewrite ln_1 in H. lra.
Qed.
Print Assumptions C50_times_refuted.

(** C50, refuted: after extinction the returned arrays go back to the initial
    counts and to time 0. *)
Theorem C50_padding_refuted :
  exists (uniform : key -> R) (key0 : key) (t : R), (forall k, 0 <= uniform k < 1) /\ 0 < t
    /\ sir_simulate uniform (0, 1)%Z 1 1 1 key0 3
       = ([Fin t; Fin 0; Fin 0], [(0, 0); (0, 1); (0, 1)]%Z).
Proof.
  exists (certain_removal (1 / 2)), (KRoot 0), (0 + - ln (exponential_sample_buffer + 1 / 2) / 1). split; [|split].
  - intro k. destruct k as [|k n [|j]]; cbn; lra.
  - assert (H : ln (exponential_sample_buffer + 1 / 2) < ln 1)
      by (apply ln_increasing; unfold exponential_sample_buffer; lra).
    rewrite ln_1 in H. lra.
  - unfold sir_simulate, while_loop_stacked_raw. cbn [seq scan update_kernel update_cond fst snd].
    cbn [Nat.leb Nat.add Z.ltb Z.compare fst snd]. rewrite sir_removal_only by lra. reflexivity.
Qed.
Print Assumptions C50_padding_refuted.

(** C85, one step of the predator-prey simulator. *)
Theorem C85_step :
  forall (uniform : key -> R) (p0 p1 p2 : R) (a b : Z) (t : R) (k : key),
  (forall k, 0 <= uniform k < 1 - 1 / 1000000) -> 0 < p0 -> 0 < p1 -> 0 < p2 ->
  (0 <= a)%Z -> (0 <= b)%Z -> (0 < a + b)%Z ->
  let births := p0 * IZR a in let predations := p1 * (IZR a * IZR b) in let deaths := p2 * IZR b in
  let total := births + predations + deaths in
  exists c dt t_key e_key k',
    lv_step uniform p0 p1 p2 ((a, b), Fin t) k = ((c, Fin (t + dt)), k')
    /\ 0 < dt /\ exp (- total * dt) = 1 / 1000000 + uniform t_key
    /\ (let q := total * (1 - uniform e_key) in
        (q <= births -> c = (a + 1, b)%Z)
        /\ (births < q <= births + predations -> c = (a - 1, b + 1)%Z)
        /\ (births + predations < q -> c = (a, b - 1)%Z))
    /\ NoDup [t_key; e_key; k'].
Proof.
  intros uniform p0 p1 p2 a b t k Hu H0 H1 H2 Ha Hb Hab births predations deaths total.
  destruct (lv_jump uniform p0 p1 p2 Hu H0 H1 H2 a b (Fin t) k Ha Hb Hab) as [Pr [Pd [c [E D]]]].
  rewrite Rmult_assoc in Pr, Pd, E, D. fold births predations deaths in Pr, Pd, E, D. fold total in Pr, Pd, E, D.
  rewrite E. cbn [xadd].
  exists c, (- ln (exponential_sample_buffer + uniform (KSplit k 3 0)) / total),
    (KSplit k 3 0), (KSplit k 3 1), (KSplit k 3 2).
  split; [reflexivity|]. split; [exact Pd|]. split; [|split].
  - replace (- total * (- ln (exponential_sample_buffer + uniform (KSplit k 3 0)) / total))
      with (ln (exponential_sample_buffer + uniform (KSplit k 3 0))) by (field; lra).
    rewrite exp_ln; [reflexivity|]. specialize (Hu (KSplit k 3 0)). unfold exponential_sample_buffer. lra.
  - cbv zeta. destruct D as [[D1 [_ D2]]|[[D1 [_ [_ D2]]]|[D1 [_ D2]]]].
    + split; [intro; exact D2|]. split; intro; exfalso; [lra|].
      assert (0 <= predations); [|lra]. unfold predations.
      apply Rmult_le_pos; [lra|]. apply Rmult_le_pos; apply IZR_le; assumption.
    + split; [intro; exfalso; lra|]. split; [intro; exact D2|intro; exfalso; lra].
    + split; [intro; exfalso|split; [intro; exfalso; lra|intro; exact D2]].
      assert (0 <= predations); [|lra]. unfold predations.
      apply Rmult_le_pos; [lra|]. apply Rmult_le_pos; apply IZR_le; assumption.
  - repeat constructor; cbn; intuition discriminate.
Qed.
Print Assumptions C85_step.

(** C85: started at time 0 and stopped by time rather than by the limit, the
    simulator returns, for every requested time, the non-negative counts in
    force then in one trajectory of births, predations and deaths. *)
Theorem C85_output_partial :
  forall (uniform : key -> R) (p0 p1 p2 : R) (init : Z * Z) (ts : list R) (key0 : key) (max_iter : nat),
  (forall k, 0 <= uniform k < 1 - 1 / 1000000) -> 0 < p0 -> 0 < p1 -> 0 < p2 -> nonneg init ->
  forall kstop, (kstop < max_iter)%nat ->
  stops_at (fun (c : (Z * Z) * xr) (_ : key) => xltb (snd c) (Fin (fold_right Rmax 0 ts)))
           (lv_step uniform p0 p1 p2) ((init, Fin 0), key0) max_iter kstop ->
  exists traj, length traj = kstop /\ path lv_next (init, Fin 0) traj
    /\ Forall2 (fun t c => in_force t ((init, Fin 0) :: traj) c /\ nonneg c)
               ts (lv_simulate uniform init 0 ts p0 p1 p2 key0 max_iter).
Proof.
  intros uniform p0 p1 p2 init ts key0 m Hu H0 H1 H2 Hi ks Hks Hst.
  set (maxt := fold_right Rmax 0 ts) in *.
  set (cond := fun (c : (Z * Z) * xr) (_ : key) => xltb (snd c) (Fin maxt)) in *.
  set (body := lv_step uniform p0 p1 p2) in *.
  set (start := ((init, Fin 0), key0)) in *.
  pose proof (raw_at cond body start m ks Hst) as E.
  destruct Hst as [Hk [Hc Hs]]. destruct Hs as [Hs|Hs]; [lia|].
  exists (iterates body start ks).
  assert (St := lv_steps uniform p0 p1 p2 Hu H0 H1 H2 init key0 0 maxt Hi ks Hc).
  fold body start in St.
  assert (Pt : path lv_next (init, Fin 0) (iterates body start ks)).
  { apply (path_iterates body lv_next start ks). intros j Hj. apply (St j Hj). }
  split; [apply iterates_length|]. split; [exact Pt|].
  assert (Pl : path (fun a b : (Z * Z) * xr => later (snd a) (snd b)) (init, Fin 0) (iterates body start ks)).
  { eapply path_impl; [|exact Pt]. intros a b [L _]. exact L. }
  assert (Last : last (iterates body start ks) (init, Fin 0) = fst (iterate body ks start)).
  { destruct ks as [|ks]; [reflexivity|]. unfold iterates. rewrite seq_S, !map_app. cbn [map]. rewrite last_last. reflexivity. }
  assert (Mx : forall t, In t ts -> t <= maxt).
  { unfold maxt. clear. induction ts as [|a l IH]; intros t Ht; [destruct Ht|].
    cbn. destruct Ht as [Ht|Ht]; [subst; apply Rmax_l|]. eapply Rle_trans; [apply IH, Ht|apply Rmax_r]. }
  unfold lv_simulate, lv_stack. fold maxt. fold cond. fold body start.
  rewrite E. destruct (m - ks)%nat as [|n] eqn:En; [lia|]. change (fst start) with (init, Fin 0).
  assert (Go : forall t, In t ts ->
     let c := before (0, 0)%Z (map fst (iterates body start ks ++ repeat (init, Fin 0) (S n)))
                (searchsorted (map zero_to_inf (map snd (iterates body start ks ++ repeat (init, Fin 0) (S n)))) (Fin t)) in
     in_force t ((init, Fin 0) :: iterates body start ks) c /\ nonneg c).
  { intros t Ht. destruct (lv_read init (iterates body start ks) n t Pl) as [r [Er [Hr Fr]]].
    { rewrite Last. unfold cond in Hs. specialize (Mx t Ht).
      pose proof (lv_along uniform p0 p1 p2 Hu H0 H1 H2 init key0 0 maxt Hi ks Hc ks (le_n _)) as La.
      fold body start in La.
      destruct La as [[[r F] _]|F]; rewrite F in *; [|reflexivity].
      cbn in *. apply Rltb_false. apply Rltb_false in Hs. lra. }
    cbv zeta. rewrite Er. split; [exact Fr|].
    destruct r as [|r]; [exact Hi|].
    destruct Hr as [Hr|Hr]; [|discriminate]. rewrite iterates_length in Hr.
    cbn [nth]. rewrite iterates_nth by lia. apply (St (S r) Hr). }
  apply Forall2_map_in. exact Go.
Qed.
Print Assumptions C85_output_partial.

(** A predator-free population with waiting times 3/4 over its size *)
Definition births_only (k : key) : R := match k with KSplit _ _ 0 => exp (- (3 / 4)) - exponential_sample_buffer | _ => 0 end.

Lemma exp_34 : 1 / 4 <= exp (- (3 / 4)) < 1 - 3 / 10.
Proof.
  split.
  - pose proof (exp_ineq1_le (- (3 / 4))). lra.
  - rewrite exp_Ropp. pose proof (exp_ineq1_le (3 / 8)) as G.
    assert (E : exp (3 / 4) = exp (3 / 8) * exp (3 / 8)) by (rewrite <- exp_plus; f_equal; lra).
    assert (exp (3 / 4) >= (11 / 8) * (11 / 8)) by (rewrite E; nra).
    apply Rmult_lt_reg_l with (exp (3 / 4)); [lra|]. rewrite Rinv_r by lra. lra.
Qed.

Lemma births_only_range k : 0 <= births_only k < 1 - 1 / 1000000.
Proof. pose proof exp_34. destruct k as [|k n [|j]]; cbn; unfold exponential_sample_buffer; lra. Qed.

Lemma lv_birth a t k : (0 < a)%Z ->
  lv_step births_only 1 1 1 ((a, 0)%Z, Fin t) k = (((a + 1, 0)%Z, Fin (t + 3 / 4 / IZR a)), KSplit k 3 2).
Proof.
  intro Ha.
  destruct (lv_jump births_only 1 1 1 births_only_range ltac:(lra) ltac:(lra) ltac:(lra) a 0 (Fin t) k ltac:(lia) ltac:(lia) ltac:(lia))
    as [Pr [Pd [c [E D]]]].
  rewrite E. cbn [xadd].
  assert (Da : 0 < IZR a) by (apply IZR_lt; exact Ha).
  assert (Ec : c = (a + 1, 0)%Z).
  { destruct D as [[_ [_ D]]|[[_ [_ [D _]]]|[_ [D _]]]]; [exact D|lia|lia]. }
  rewrite Ec. do 4 f_equal. cbn [births_only].
  replace (exponential_sample_buffer + (exp (- (3 / 4)) - exponential_sample_buffer)) with (exp (- (3 / 4))) by ring.
  rewrite ln_exp. field. lra.
Qed.

Lemma zti r : r <> 0 -> zero_to_inf (Fin r) = Fin r.
Proof. intro H. cbn. destruct (Req_EM_T r 0); [contradiction|reflexivity]. Qed.

Example C85_example : exists traj, path lv_next ((1, 0)%Z, Fin 0) traj
  /\ Forall2 (fun t c => in_force t (((1, 0)%Z, Fin 0) :: traj) c /\ nonneg c)
             [1 / 2; 1] (lv_simulate births_only (1, 0)%Z 0 [1 / 2; 1] 1 1 1 (KRoot 0) 4).
Proof.
  assert (M : fold_right Rmax 0 [1 / 2; 1] = 1) by (cbn; rewrite (Rmax_left 1 0) by lra; rewrite Rmax_right; lra).
  destruct (C85_output_partial births_only 1 1 1 (1, 0)%Z [1 / 2; 1] (KRoot 0) 4 births_only_range
              ltac:(lra) ltac:(lra) ltac:(lra) ltac:(split; cbn; lia) 2 ltac:(lia)) as [traj [_ H]].
  - rewrite M. split; [lia|]. split.
    + intros j Hj. destruct j as [|[|j]]; [| |lia]; cbn [iterate fst snd]; [apply Rltb_true; lra|].
      rewrite lv_birth by lia. apply Rltb_true. lra.
    + right. cbn [iterate fst snd]. rewrite lv_birth by lia. cbn [fst snd].
      change (1 + 1)%Z with 2%Z. rewrite lv_birth by lia. apply Rltb_false. lra.
  - exists traj. exact H.
Qed.

(** C85: the simulated data are the prey in force at the requested times. *)
Theorem C85_prey_partial :
  forall (uniform : key -> R) (p0 p1 p2 : R) (init : Z * Z) (ts : list R) (key0 : key) (max_iter : nat),
  (forall k, 0 <= uniform k < 1 - 1 / 1000000) -> 0 < p0 -> 0 < p1 -> 0 < p2 -> nonneg init ->
  forall kstop, (kstop < max_iter)%nat ->
  stops_at (fun (c : (Z * Z) * xr) (_ : key) => xltb (snd c) (Fin (fold_right Rmax 0 ts)))
           (lv_step uniform p0 p1 p2) ((init, Fin 0), key0) max_iter kstop ->
  exists traj, path lv_next (init, Fin 0) traj
    /\ Forall2 (fun t prey => exists predators, in_force t ((init, Fin 0) :: traj) (prey, predators) /\ (0 <= prey)%Z)
               ts (lv_likelihood_sample uniform init 0 ts p0 p1 p2 key0 max_iter).
Proof.
  intros uniform p0 p1 p2 init ts key0 m Hu H0 H1 H2 Hi ks Hks Hst.
  destruct (C85_output_partial uniform p0 p1 p2 init ts key0 m Hu H0 H1 H2 Hi ks Hks Hst) as (traj & _ & P & F).
  exists traj. split; [exact P|]. unfold lv_likelihood_sample.
  clear Hst. induction F as [|t [a b] l l' [G N] _ IH]; [constructor|].
  cbn [map fst]. constructor; [|exact IH]. exists b. split; [exact G|]. exact (proj1 N).
Qed.
Print Assumptions C85_prey_partial.

Example C85_prey_example : exists traj, path lv_next ((1, 0)%Z, Fin 0) traj
  /\ Forall2 (fun t prey => exists predators, in_force t (((1, 0)%Z, Fin 0) :: traj) (prey, predators) /\ (0 <= prey)%Z)
             [1 / 2; 1] (lv_likelihood_sample births_only (1, 0)%Z 0 [1 / 2; 1] 1 1 1 (KRoot 0) 4).
Proof.
  assert (M : fold_right Rmax 0 [1 / 2; 1] = 1) by (cbn; rewrite (Rmax_left 1 0) by lra; rewrite Rmax_right; lra).
  apply (C85_prey_partial births_only 1 1 1 (1, 0)%Z [1 / 2; 1] (KRoot 0) 4 births_only_range
              ltac:(lra) ltac:(lra) ltac:(lra) ltac:(split; cbn; lia) 2 ltac:(lia)).
  rewrite M. split; [lia|]. split.
  - intros j Hj. destruct j as [|[|j]]; [| |lia]; cbn [iterate fst snd]; [apply Rltb_true; lra|].
    rewrite lv_birth by lia. apply Rltb_true. lra.
  - right. cbn [iterate fst snd]. rewrite lv_birth by lia. cbn [fst snd].
    change (1 + 1)%Z with 2%Z. rewrite lv_birth by lia. apply Rltb_false. lra.
Qed.

(** C85, refuted: the state in force can only be read when the first requested
    time is 0; here the counts at time 2 should be (2, 0). *)
Theorem C85_nonzero_start_refuted :
  exists (uniform : key -> R) (key0 : key), (forall k, 0 <= uniform k < 1 - 1 / 1000000)
    /\ exists u v, path lv_next ((1, 0)%Z, Fin 1) [((2, 0)%Z, Fin u); ((3, 0)%Z, Fin v)] /\ u < 2 < v
    /\ lv_stack uniform (1, 0)%Z 1 [2] 1 1 1 key0 4 = [((2, 0)%Z, Fin u); ((3, 0)%Z, Fin v); ((1, 0)%Z, Fin 1); ((1, 0)%Z, Fin 1)]
    /\ lv_simulate uniform (1, 0)%Z 1 [2] 1 1 1 key0 4 = [(1, 0)%Z].
Proof.
  exists births_only, (KRoot 0). split; [exact births_only_range|].
  exists (1 + 3 / 4 / IZR 1), (1 + 3 / 4 / IZR 1 + 3 / 4 / IZR 2).
  assert (M : fold_right Rmax 1 [2] = 2) by (cbn; rewrite Rmax_left; lra).
  assert (S0 : lv_stack births_only (1, 0)%Z 1 [2] 1 1 1 (KRoot 0) 4
    = [((2, 0)%Z, Fin (1 + 3 / 4 / IZR 1)); ((3, 0)%Z, Fin (1 + 3 / 4 / IZR 1 + 3 / 4 / IZR 2)); ((1, 0)%Z, Fin 1); ((1, 0)%Z, Fin 1)]).
  { unfold lv_stack. rewrite M. rewrite (raw_at _ _ _ 4 2).
    - unfold iterates. cbn [seq map iterate fst snd]. rewrite lv_birth by lia. cbn [fst snd].
      change (1 + 1)%Z with 2%Z. rewrite lv_birth by lia. reflexivity.
    - split; [lia|]. split.
      + intros j Hj. destruct j as [|[|j]]; [| |lia]; cbn [iterate fst snd]; [apply Rltb_true; lra|].
        rewrite lv_birth by lia. apply Rltb_true. lra.
      + right. cbn [iterate fst snd]. rewrite lv_birth by lia. cbn [fst snd].
        change (1 + 1)%Z with 2%Z. rewrite lv_birth by lia. apply Rltb_false. lra. }
  split; [|split; [lra|split; [exact S0|]]].
  - cbn [path]. split; [|split; [|exact I]]; (split; [cbn; lra|]); left; (split; [|discriminate]).
    + apply (birth 1 0). lia.
    + apply (birth 2 0). lia.
  - unfold lv_simulate. rewrite S0. cbn [map fst snd]. rewrite !zti by lra.
    unfold searchsorted. change (Nat.log2_up (S (length [Fin (1 + 3 / 4 / IZR 1); Fin (1 + 3 / 4 / IZR 1 + 3 / 4 / IZR 2); Fin 1; Fin 1]))) with 3%nat.
    cbn [length halve Nat.div Nat.divmod Nat.add fst snd nth xleb].
    replace (Rleb 2 1) with false by (symmetry; apply Rleb_false; lra).
    cbn [length halve Nat.div Nat.divmod Nat.add fst snd nth xleb].
    replace (Rleb 2 1) with false by (symmetry; apply Rleb_false; lra).
    cbn [length halve Nat.div Nat.divmod Nat.add fst snd nth xleb].
    replace (Rleb 2 1) with false by (symmetry; apply Rleb_false; lra).
    reflexivity.
Qed.
Print Assumptions C85_nonzero_start_refuted.

(** C85, refuted: when the last allowed event is the one that passes the last
    requested time, times before the first event read the last state; here the
    counts at 1/2 should be (1, 0). *)
Theorem C85_limit_refuted :
  exists (uniform : key -> R) (key0 : key), (forall k, 0 <= uniform k < 1 - 1 / 1000000)
    /\ exists u v, 1 / 2 < u < 1 /\ 1 < v
    /\ lv_stack uniform (1, 0)%Z 0 [1 / 2; 1] 1 1 1 key0 2 = [((2, 0)%Z, Fin u); ((3, 0)%Z, Fin v)]
    /\ lv_simulate uniform (1, 0)%Z 0 [1 / 2; 1] 1 1 1 key0 2 = [(3, 0); (2, 0)]%Z.
Proof.
  exists births_only, (KRoot 0). split; [exact births_only_range|].
  exists (0 + 3 / 4 / IZR 1), (0 + 3 / 4 / IZR 1 + 3 / 4 / IZR 2).
  assert (M : fold_right Rmax 0 [1 / 2; 1] = 1) by (cbn; rewrite (Rmax_left 1 0) by lra; rewrite Rmax_right; lra).
  assert (S0 : lv_stack births_only (1, 0)%Z 0 [1 / 2; 1] 1 1 1 (KRoot 0) 2
    = [((2, 0)%Z, Fin (0 + 3 / 4 / IZR 1)); ((3, 0)%Z, Fin (0 + 3 / 4 / IZR 1 + 3 / 4 / IZR 2))]).
  { unfold lv_stack. rewrite M. rewrite (raw_at _ _ _ 2 2).
    - unfold iterates. cbn [seq map iterate fst snd]. rewrite lv_birth by lia. cbn [fst snd].
      change (1 + 1)%Z with 2%Z. rewrite lv_birth by lia. reflexivity.
    - split; [lia|]. split.
      + intros j Hj. destruct j as [|[|j]]; [| |lia]; cbn [iterate fst snd]; [apply Rltb_true; lra|].
        rewrite lv_birth by lia. apply Rltb_true. lra.
      + left. reflexivity. }
  split; [lra|split; [lra|split; [exact S0|]]].
  unfold lv_simulate. rewrite S0. cbn [map fst snd]. rewrite !zti by lra.
  unfold searchsorted. change (Nat.log2_up (S (length [Fin (0 + 3 / 4 / IZR 1); Fin (0 + 3 / 4 / IZR 1 + 3 / 4 / IZR 2)]))) with 2%nat.
  cbn [length halve Nat.div Nat.divmod Nat.add fst snd nth xleb].
  replace (Rleb (1 / 2) (0 + 3 / 4 / 1 + 3 / 4 / 2)) with true by (symmetry; apply Rleb_true; lra).
  replace (Rleb 1 (0 + 3 / 4 / 1 + 3 / 4 / 2)) with true by (symmetry; apply Rleb_true; lra).
  cbn [length halve Nat.div Nat.divmod Nat.add fst snd nth xleb].
  replace (Rleb (1 / 2) (0 + 3 / 4 / 1)) with true by (symmetry; apply Rleb_true; lra).
  replace (Rleb 1 (0 + 3 / 4 / 1)) with false by (symmetry; apply Rleb_false; lra).
  reflexivity.
Qed.
Print Assumptions C85_limit_refuted.

(** C85 and C50: a step reads only its two keys, and no key is read twice in a
    simulation. *)
Theorem C32_sim_keys :
  (forall u u' beta gamma n c k, u (KSplit k 3 0) = u' (KSplit k 3 0) -> u (KSplit k 3 1) = u' (KSplit k 3 1) ->
     sir_step u beta gamma n c k = sir_step u' beta gamma n c k)
  /\ (forall u u' p0 p1 p2 c k, u (KSplit k 3 0) = u' (KSplit k 3 0) -> u (KSplit k 3 1) = u' (KSplit k 3 1) ->
     lv_step u p0 p1 p2 c k = lv_step u' p0 p1 p2 c k)
  /\ (forall u beta gamma n c k m,
        NoDup (flat_map (fun j => let kj := snd (iterate (sir_step u beta gamma n) j (c, k)) in [KSplit kj 3 0; KSplit kj 3 1]) (seq 0 m)))
  /\ (forall u p0 p1 p2 c k m,
        NoDup (flat_map (fun j => let kj := snd (iterate (lv_step u p0 p1 p2) j (c, k)) in [KSplit kj 3 0; KSplit kj 3 1]) (seq 0 m))).
Proof.
  split; [|split; [|split]].
  - intros u u' b g n [[s i] t] k H0 H1. unfold sir_step, jump, choice. rewrite H0, H1. reflexivity.
  - intros u u' p0 p1 p2 [[s i] t] k H0 H1. unfold lv_step, jump, choice. rewrite H0, H1. reflexivity.
  - intros u b g n c k m. apply sim_keys_distinct. intros [[s i] t] k'. reflexivity.
  - intros u p0 p1 p2 c k m. apply sim_keys_distinct. intros [[s i] t] k'. reflexivity.
Qed.
Print Assumptions C32_sim_keys.

Example C32_sim_keys_example : forall (u : key -> R) (j : nat), (0 < j)%nat ->
  snd (iterate (sir_step u 1 1 1) j (((1, 1)%Z, Fin 0), KRoot 0)) <> KRoot 0.
Proof.
  intros u j Hj. destruct j as [|j]; [lia|]. cbn [iterate]. destruct (iterate _ j _) as [[[s i] t] k]. discriminate.
Qed.

(** C86: the draw from the exponential prior is the inverse of its distribution
    function up to the buffer; the draws below one minus the buffer are in the
    support. *)
Theorem C86_prior_partial :
  forall rate u x, 0 < rate -> 0 <= u < 1 ->
  (x < prior_sample rate u <-> u < exp (- rate * x) - 1 / 1000000)
  /\ (u < 1 - 1 / 1000000 -> 0 < prior_sample rate u
        /\ exists z, transformed_prior_sample rate u = Fin z /\ exp z = prior_sample rate u).
Proof.
  intros rate u x Hr Hu. unfold prior_sample. set (b := exponential_sample_buffer).
  assert (B : b = 1 / 1000000) by reflexivity.
  assert (L : forall y, y < - ln (b + u) / rate <-> u < exp (- rate * y) - b).
  { intro y. split; intro H.
    - apply (Rmult_lt_compat_l rate) in H; [|exact Hr].
      replace (rate * (- ln (b + u) / rate)) with (- ln (b + u)) in H by (field; lra).
      assert (G : ln (b + u) < - rate * y) by lra. apply exp_increasing in G. rewrite exp_ln in G by lra. lra.
    - assert (G : ln (b + u) < ln (exp (- rate * y))) by (apply ln_increasing; lra). rewrite ln_exp in G.
      apply Rmult_lt_reg_l with rate; [exact Hr|].
      replace (rate * (- ln (b + u) / rate)) with (- ln (b + u)) by (field; lra). lra. }
  split; [rewrite <- B; apply L|]. intro H.
  assert (P : 0 < - ln (b + u) / rate) by (apply L; rewrite Rmult_0_r, exp_0; lra).
  split; [exact P|]. exists (ln (- ln (b + u) / rate)). split; [|apply exp_ln, P].
  unfold transformed_prior_sample, unconstrain, prior_sample. fold b.
  destruct (Rlt_dec 0 (- ln (b + u) / rate)); [reflexivity|contradiction].
Qed.
Print Assumptions C86_prior_partial.

Example C86_example : 0 < prior_sample 2 (1 / 2).
Proof. apply (C86_prior_partial 2 (1 / 2) 0); lra. Qed.

(** C86, refuted: some draws are negative, outside the support, and their
    logarithm is NaN; and no draw exceeds 16 divided by the rate. *)
Theorem C86_support_refuted :
  (exists u, 0 <= u < 1 /\ prior_sample 1 u < 0 /\ transformed_prior_sample 1 u = NaN)
  /\ (forall rate u, 0 < rate -> 0 <= u < 1 -> prior_sample rate u < 16 / rate).
Proof.
  split.
  - exists (1 - 1 / 2000000). split; [lra|].
    assert (P : prior_sample 1 (1 - 1 / 2000000) < 0).
    { unfold prior_sample, exponential_sample_buffer.
      assert (H : ln 1 < ln (1 / 1000000 + (1 - 1 / 2000000))) by (apply ln_increasing; lra). rewrite ln_1 in H. lra. }
    split; [exact P|]. unfold transformed_prior_sample, unconstrain.
    destruct (Rlt_dec 0 (prior_sample 1 (1 - 1 / 2000000))); [lra|].
    destruct (Req_EM_T (prior_sample 1 (1 - 1 / 2000000)) 0); [lra|reflexivity].
  - intros rate u Hr Hu. unfold prior_sample, exponential_sample_buffer, Rdiv.
    apply Rmult_lt_compat_r; [apply Rinv_0_lt_compat; exact Hr|].
    assert (E : exp (- (16)) < 1 / 1000000).
    { assert (Sq : forall a y, 0 <= a -> a <= exp y -> a * a <= exp (y + y)) by (intros a y Ha Hy; rewrite exp_plus; nra).
      assert (G8 : 9 / 8 <= exp (1 / 8)) by (pose proof (exp_ineq1_le (1 / 8)); lra).
      assert (G4 : 1.26 <= exp (1 / 8 + 1 / 8)) by (apply Rle_trans with (9 / 8 * (9 / 8)); [lra|apply Sq; lra]).
      assert (G2 : 1.58 <= exp (1 / 4 + 1 / 4)) by (apply Rle_trans with (1.26 * 1.26); [lra|apply Sq; [lra|replace (1 / 4) with (1 / 8 + 1 / 8) by lra; lra]]).
      assert (G1 : 2.49 <= exp (1 / 2 + 1 / 2)) by (apply Rle_trans with (1.58 * 1.58); [lra|apply Sq; [lra|replace (1 / 2) with (1 / 4 + 1 / 4) by lra; lra]]).
      assert (F2 : 6 <= exp (1 + 1)) by (apply Rle_trans with (2.49 * 2.49); [lra|apply Sq; [lra|replace 1 with (1 / 2 + 1 / 2) by lra; lra]]).
      assert (F4 : 36 <= exp (2 + 2)) by (apply Rle_trans with (6 * 6); [lra|apply Sq; [lra|replace 2 with (1 + 1) by lra; lra]]).
      assert (F8 : 1296 <= exp (4 + 4)) by (apply Rle_trans with (36 * 36); [lra|apply Sq; [lra|replace 4 with (2 + 2) by lra; lra]]).
      assert (F16 : 1600000 <= exp (8 + 8)) by (apply Rle_trans with (1296 * 1296); [lra|apply Sq; [lra|replace 8 with (4 + 4) by lra; lra]]).
      rewrite exp_Ropp. replace 16 with (8 + 8) by lra. unfold Rdiv. rewrite Rmult_1_l. apply Rinv_lt_contravar; nra. }
    assert (H : ln (exp (- (16))) < ln (1 * / 1000000 + u)) by (apply ln_increasing; [apply exp_pos|lra]).
    rewrite ln_exp in H. lra.
Qed.
Print Assumptions C86_support_refuted.

(** C86: the potential on the logarithmic scale is that of the exponential
    variable minus the log of the derivative of the map back. *)
Theorem C86_transformed_potential :
  forall rate x d, derivable_pt_lim exp x d ->
  transformed_prior_potential rate x = prior_potential rate (exp x) - ln d.
Proof.
  intros rate x d H. assert (d = exp x) by (apply (uniqueness_limite exp x); [exact H|apply derivable_pt_lim_exp]).
  subst d. rewrite ln_exp. unfold transformed_prior_potential, prior_potential. ring.
Qed.
Print Assumptions C86_transformed_potential.

Example C86_transformed_potential_example : transformed_prior_potential 3 0 = 3.
Proof.
  rewrite (C86_transformed_potential 3 0 1).
  - unfold prior_potential. rewrite exp_0, ln_1. ring.
  - rewrite <- exp_0. apply derivable_pt_lim_exp.
Qed.

(** C87: the Ricker simulator returns the initial size and one size per step,
    each following the noisy map with its own normal draw. *)
Theorem C87_ricker :
  forall (normal : key -> R) (n0 r sd : R) (steps : nat) (k : key),
  let l := ricker_simulate normal n0 r sd steps k in
  length l = S steps /\ nth 0 l 0 = n0
  /\ exists keys, length keys = steps /\ NoDup keys
     /\ forall i, (i < steps)%nat ->
        nth (S i) l 0 = r * nth i l 0 * exp (- nth i l 0 + sd * normal (nth i keys k)).
Proof.
  intros normal n0 r sd steps k l.
  set (body := fun n i => let new_n := r * n * exp (- n + sd * normal (KSplit k steps i)) in (new_n, new_n)).
  assert (Go : forall m s n, length (snd (scan body n (seq s m))) = m
    /\ forall i, (i < m)%nat ->
       nth (S i) (n :: snd (scan body n (seq s m))) 0
       = r * nth i (n :: snd (scan body n (seq s m))) 0
         * exp (- nth i (n :: snd (scan body n (seq s m))) 0 + sd * normal (KSplit k steps (s + i)))).
  { induction m as [|m IH]; intros s n; cbn [seq scan]; [split; [reflexivity|intros; lia]|].
    unfold body at 1 3 5 7. cbv zeta.
    destruct (IH (S s) (r * n * exp (- n + sd * normal (KSplit k steps s)))) as [I1 I2].
    destruct (scan body (r * n * exp (- n + sd * normal (KSplit k steps s))) (seq (S s) m)) as [c2 os]. cbn [snd] in *.
    split; [cbn; rewrite I1; reflexivity|]. intros [|i] Hi.
    - cbn. rewrite Nat.add_0_r. reflexivity.
    - specialize (I2 i ltac:(lia)). cbn [nth] in *. replace (s + S i)%nat with (S s + i)%nat by lia. exact I2. }
  destruct (Go steps O n0) as [G1 G2]. unfold l, ricker_simulate. fold body.
  split; [cbn; rewrite G1; reflexivity|]. split; [reflexivity|].
  exists (map (KSplit k steps) (seq 0 steps)). split; [rewrite map_length, seq_length; reflexivity|]. split.
  - apply FinFun.Injective_map_NoDup; [|apply seq_NoDup]. intros a b E. injection E. auto.
  - intros i Hi. rewrite G2 by exact Hi. cbn [Nat.add].
    rewrite (nth_indep _ k (KSplit k steps 0)) by (rewrite map_length, seq_length; exact Hi).
    rewrite (map_nth (KSplit k steps)), seq_nth by exact Hi. reflexivity.
Qed.
Print Assumptions C87_ricker.

(** C87: sizes stay non-negative, each is at most r exp(sd z - 1), and without
    noise and with r at most one the population decays geometrically. *)
Theorem C87_bounds :
  forall (normal : key -> R) (n0 r sd : R) (steps : nat) (k : key), 0 <= n0 -> 0 <= r ->
  let l := ricker_simulate normal n0 r sd steps k in
  (forall i, (i <= steps)%nat -> 0 <= nth i l 0)
  /\ (forall b, (forall k, normal k <= b) -> 0 <= sd -> forall i, (i < steps)%nat -> nth (S i) l 0 <= r * exp (sd * b - 1))
  /\ (sd = 0 -> r <= 1 -> forall i, (i <= steps)%nat -> nth i l 0 <= r ^ i * n0).
Proof.
  intros normal n0 r sd steps k Hn Hr l.
  destruct (C87_ricker normal n0 r sd steps k) as [_ [H0 [keys [_ [_ Hs]]]]]. fold l in H0, Hs.
  assert (P : forall i, (i <= steps)%nat -> 0 <= nth i l 0).
  { induction i as [|i IH]; intro Hi; [rewrite H0; exact Hn|].
    rewrite Hs by lia. apply Rmult_le_pos; [apply Rmult_le_pos; [exact Hr|apply IH; lia]|apply Rlt_le, exp_pos]. }
  split; [exact P|]. split.
  - intros b Hb Hsd i Hi. rewrite Hs by exact Hi. specialize (P i ltac:(lia)). set (n := nth i l 0) in *.
    rewrite Rmult_assoc. apply Rmult_le_compat_l; [exact Hr|].
    assert (N : n <= exp (n - 1)) by (pose proof (exp_ineq1_le (n - 1)); lra).
    apply Rle_trans with (exp (n - 1) * exp (- n + sd * normal (nth i keys k))).
    + apply Rmult_le_compat_r; [apply Rlt_le, exp_pos|exact N].
    + rewrite <- exp_plus. specialize (Hb (nth i keys k)).
      assert (Le : n - 1 + (- n + sd * normal (nth i keys k)) <= sd * b - 1) by nra.
      destruct Le as [Le|Le]; [apply Rlt_le, exp_increasing, Le|rewrite Le; lra].
  - intros Hsd Hr1. induction i as [|i IH]; intro Hi; [rewrite H0; cbn; lra|].
    rewrite Hs by lia. specialize (IH ltac:(lia)). specialize (P i ltac:(lia)). set (n := nth i l 0) in *.
    rewrite Hsd, Rmult_0_l, Rplus_0_r. cbn [pow].
    assert (E : exp (- n) <= 1) by (rewrite <- exp_0; destruct P as [P|P]; [apply Rlt_le, exp_increasing; lra|rewrite <- P; rewrite Ropp_0; lra]).
    pose proof (exp_pos (- n)). assert (0 <= r * n) by (apply Rmult_le_pos; assumption).
    apply Rle_trans with (r * n * 1); [apply Rmult_le_compat_l; assumption|]. nra.
Qed.
Print Assumptions C87_bounds.

Example C87_example : forall normal k, ricker_simulate normal 0 5 1 3 k = [0; 0; 0; 0].
Proof. intros. unfold ricker_simulate. cbn. repeat rewrite ?Rmult_0_r, ?Rmult_0_l. reflexivity. Qed.
Example C87_equilibrium : forall normal k, nth 1 (ricker_simulate normal (ln 5) 5 0 3 k) 0 = ln 5.
Proof.
  intros. destruct (C87_ricker normal (ln 5) 5 0 3 k) as [_ [H0 [keys [_ [_ Hs]]]]].
  rewrite Hs by lia. rewrite H0, Rmult_0_l, Rplus_0_r, exp_Ropp, exp_ln by lra. field.
Qed.

(** C87: the observations are non-negative, one per requested index, read with
    a key other than those of the dynamics. *)
Theorem C87_observations :
  forall (normal : key -> R) (poisson : key -> list R -> list Z) (n0 x0 x1 x2 : R) (steps : nat) (inds : list nat) (k : key),
  (forall k l, length (poisson k l) = length l) -> Forall (fun i => (i <= steps)%nat) inds ->
  let out := ricker_likelihood_sample normal poisson n0 x0 x1 x2 steps inds k in
  length out = length inds /\ Forall (fun o => (0 <= o)%Z) out
  /\ exists dk ok, dk <> ok /\ ~ derived dk ok /\ ~ derived ok dk
     /\ forall j, (j < length inds)%nat ->
        nth j out 0%Z = Z.max 0 (nth j (poisson ok (map (fun i => x2 * nth i (ricker_simulate normal n0 x0 x1 steps dk) 0) inds)) 0%Z).
Proof.
  intros normal poisson n0 x0 x1 x2 steps inds k Hp Hi out.
  assert (Em : map (Rmult x2) (map (at_clamped 0 (ricker_simulate normal n0 x0 x1 steps (KSplit k 2 0))) inds)
               = map (fun i => x2 * nth i (ricker_simulate normal n0 x0 x1 steps (KSplit k 2 0)) 0) inds).
  { rewrite map_map. apply map_ext_in. intros i Hin. f_equal. unfold at_clamped.
    destruct (C87_ricker normal n0 x0 x1 steps (KSplit k 2 0)) as [L _]. cbv zeta in L. rewrite L.
    rewrite Forall_forall in Hi. specialize (Hi i Hin). rewrite Nat.min_l by lia. reflexivity. }
  unfold out, ricker_likelihood_sample. cbv zeta. rewrite Em.
  split; [rewrite map_length, Hp, map_length; reflexivity|]. split.
  - apply Forall_forall. intros o Ho. apply in_map_iff in Ho. destruct Ho as [z [E _]].
    destruct (Z.ltb z 0) eqn:Ez; [subst; lia|]. apply Z.ltb_ge in Ez. subst. exact Ez.
  - exists (KSplit k 2 0), (KSplit k 2 1). split; [discriminate|].
    split; [|split].
    + intro D. apply derived_same_depth in D; [discriminate|reflexivity].
    + intro D. apply derived_same_depth in D; [discriminate|reflexivity].
    + intros j Hj. set (P := poisson _ _).
      rewrite (nth_indep _ 0%Z ((fun o => if Z.ltb o 0 then 0%Z else o) 0%Z)) by (rewrite map_length; unfold P; rewrite Hp, map_length; exact Hj).
      rewrite (map_nth (fun o => if Z.ltb o 0 then 0%Z else o)).
      destruct (Z.ltb_spec (nth j P 0%Z) 0); lia.
Qed.
Print Assumptions C87_observations.

Example C87_observations_example :
  ricker_likelihood_sample (fun _ => 0) (fun _ l => map (fun _ => (-1)%Z) l) 1 2 0 10 4 [0; 2; 4]%nat (KRoot 1) = [0; 0; 0]%Z.
Proof. reflexivity. Qed.
