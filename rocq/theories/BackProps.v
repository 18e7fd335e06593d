(** Property theorems C44, C66, C67: backward simulation. *)
From Coq Require Import Reals List Arith Bool Lia Lra.
From Verif Require Import XR Keys HmcModel WeightsSpec McmcModel McmcSpec McmcProofs SmcModel SmcSpec SmcProofs SmcProps
  FilterModel FilterSpec FilterProofs FilterProps BackModel BackSpec BackProofs.
Import ListNotations.
Open Scope R_scope.

(** Concrete draws: the first category of finite weight; uniforms of one half. *)
Definition cat1_first (k : key) (lw : list xr) : nat :=
  if (first_finite lw <? length lw)%nat then first_finite lw else 0%nat.
Definition cat_n_first (k : key) (lw : list xr) (n : nat) : list nat := repeat (cat1_first k lw) n.
Definition halves (k : key) (n : nat) : list R := repeat (/ 2) n.

Lemma cat1_first_ok : categorical1_ok cat1_first.
Proof.
  intros k lw Hne. unfold cat1_first.
  destruct (cat_first_ok k lw (length lw) eq_refl) as (_ & H1 & H2). unfold cat_first in *.
  set (i := if (first_finite lw <? length lw)%nat then first_finite lw else 0%nat) in *.
  assert (Hin : In i (repeat i (length lw))) by (destruct lw; [congruence|left; reflexivity]).
  rewrite Forall_forall in H1. split; [apply H1, Hin|]. intros O. specialize (H2 O). rewrite Forall_forall in H2.
  apply H2, Hin.
Qed.
Lemma cat_n_first_ok : categorical_n_ok cat_n_first.
Proof.
  intros k lw n Hn. unfold cat_n_first. split; [apply repeat_length|].
  destruct lw as [|w lw].
  { rewrite (Hn eq_refl). split; [constructor|intros; constructor]. }
  destruct (cat1_first_ok k (w :: lw) ltac:(discriminate)) as [H1 H2].
  split; [|intros O]; apply Forall_forall; intros i Hi; apply repeat_spec in Hi; subst i; [exact H1|apply H2, O].
Qed.
Lemma halves_length k n : length (halves k n) = n.
Proof. apply repeat_length. Qed.

Lemma xlt_em a b : xlt a b \/ ~ xlt a b.
Proof. destruct a as [r| | |], b as [s| | |]; cbn; try tauto; destruct (Rlt_dec r s); tauto. Qed.

Lemma categorical_n_all cat : categorical_n_ok cat -> categorical_ok cat.
Proof. intros H k lw n L. subst n. apply H. intros ->. reflexivity. Qed.

(** C44.  Both variants. *)
Theorem C44_support :
  forall (X Tm : Type) (dx : X) (dt : Tm) pot categorical categorical1 uniform uniform_n
    (V : list (list X)) (W : list (list xr)) (ts : list Tm) (k : key) (n_samps : option nat)
    (maxrej : nat) (init_bound inflation : R) (T : nat),
  categorical_n_ok categorical -> categorical1_ok categorical1 -> (forall k n, length (uniform_n k n) = n) ->
  (forall x t x' t', potential_value (pot x t x' t')) ->
  filter_rows (S T) V W ->
  (forall s, (s < T)%nat -> reachable dx pot (nth s V []) (nth s W []) (nth s ts dt)
                                      (nth (S s) V []) (nth (S s) W []) (nth (S s) ts dt)) ->
  let n := match n_samps with Some n => n | None => length (nth 0 V []) end in
  exists out evs,
  backward_simulation dx pot categorical categorical1 uniform uniform_n dt V W ts k n_samps maxrej init_bound inflation
    = Some (out, evs)
  /\ length out = S T
  /\ nth T out [] = map (fun i => nth i (nth T V []) dx) (categorical (KSplit k (S T) T) (nth T W []) n)
  /\ (forall s, (s <= T)%nat -> length (nth s out []) = n
       /\ forall j, (j < n)%nat -> weighted_particle dx (nth s V []) (nth s W []) (nth j (nth s out []) dx))
  /\ length evs = S T /\ nth 0 evs 1%nat = 0%nat
  /\ forall s, (s < T)%nat ->
     (nth (S s) evs 0 <= n * Nat.max 1 maxrej + Nat.max (length (nth 0 V [])) (length (nth s V [])) * n)%nat.
Proof.
  intros X Tm dx dt pot cat cat1 unif unif_n V W ts k ns maxrej ib infl T Hcat Hcat1 Hun Hpot HF Hre n.
  unfold backward_simulation. fold n. destruct HF as (LV & LW & Hr).
  destruct (Nat.ltb_spec 0 maxrej) as [Hm|Hm].
  - destruct (back_sim_ok dx cat Hcat (body_rejection dx pot cat cat1 unif unif_n dt maxrej ib infl)
      (fun _ _ _ _ => True) (fun i => (n * Nat.max 1 maxrej + length (nth i V []) * n)%nat) V W ts n k T
      (conj LV (conj LW Hr))) as (out & evs & E & B1 & B2 & B3 & B4 & B5 & B6 & _).
    { intros i x1 Hi L1 H1. destruct (Hr i ltac:(lia)) as [HL HO]. unfold body_rejection. rewrite <- L1.
      apply (rejection_step dx pot cat cat1 unif unif_n Hcat Hcat1 Hun Hpot (nth i V []) (nth i ts dt) x1 (nth (S i) ts dt)
               (nth i W []) (KSplit k (S T) i) maxrej ib infl HL HO).
      intros j Hj. apply (Hre i Hi). apply H1. lia. }
    exists out, evs. split; [exact E|]. split; [exact B1|]. split; [exact B3|]. split; [exact B6|].
    split; [exact B2|]. split; [exact B4|]. intros s Hs. specialize (B5 s Hs). cbv beta in B5. nia.
  - destruct (back_sim_ok dx cat Hcat (body_full dx pot cat1 dt)
      (fun i _ x x' => finite (pot x (nth i ts dt) x' (nth (S i) ts dt))) (fun i => (length (nth 0 V []) * n)%nat) V W ts n k T
      (conj LV (conj LW Hr))) as (out & evs & E & B1 & B2 & B3 & B4 & B5 & B6 & _).
    { intros i x1 Hi L1 H1. destruct (Hr i ltac:(lia)) as [HL HO]. unfold body_full. rewrite <- L1.
      apply (full_step dx pot cat1 Hcat1 Hpot (nth i V []) (nth i ts dt) x1 (nth (S i) ts dt)
               (nth i W []) (KSplit k (S T) i) _ HL HO).
      intros j Hj. apply (Hre i Hi). apply H1. lia. }
    exists out, evs. split; [exact E|]. split; [exact B1|]. split; [exact B3|]. split; [exact B6|].
    split; [exact B2|]. split; [exact B4|]. intros s Hs. specialize (B5 s Hs). cbv beta in B5. nia.
Qed.
Print Assumptions C44_support.

(** three times, two particles; the transition forbids moving down *)
Definition up_pot (x : nat) (_ : nat) (x' : nat) (_ : nat) : xr := if (x <=? x')%nat then Fin 0 else PInf.
Lemma up_pot_ok x t x' t' : potential_value (up_pot x t x' t').
Proof. unfold up_pot. destruct (x <=? x')%nat; [left; eexists|right]; reflexivity. Qed.
Definition up_V : list (list nat) := [[1; 2]; [3; 2]; [9; 4]]%nat.
Definition up_W : list (list xr) := [[Fin 0; Fin 1]; [Fin 0; NInf]; [NInf; Fin 0]].
Lemma up_rows : filter_rows 3 up_V up_W.
Proof.
  split; [reflexivity|]. split; [reflexivity|]. intros s Hs.
  destruct s as [|[|[|s]]]; [| | |lia]; cbn; (split; [reflexivity|]); split;
    repeat (constructor; [first [left; reflexivity|right; eexists; reflexivity]|]); try constructor;
    first [eexists; reflexivity|apply Exists_cons_hd; eexists; reflexivity|
           apply Exists_cons_tl, Exists_cons_hd; eexists; reflexivity].
Qed.
Lemma up_reach s : (s < 2)%nat -> reachable 0%nat up_pot (nth s up_V []) (nth s up_W []) (nth s [0; 1; 2] 0)%nat
  (nth (S s) up_V []) (nth (S s) up_W []) (nth (S s) [0; 1; 2] 0)%nat.
Proof.
  intros Hs x1 (i & Hi & -> & [w Hw]). destruct s as [|[|s]]; [| |lia]; cbn in *;
    destruct i as [|[|i]]; try lia; cbn in *; try discriminate.
  - exists 1%nat. split; [exists 0%nat; repeat split; [cbn; lia|eexists; reflexivity]|eexists; reflexivity].
  - exists 3%nat. split; [exists 0%nat; repeat split; [cbn; lia|eexists; reflexivity]|eexists; reflexivity].
Qed.
Example C44_example :
  backward_simulation 0%nat up_pot cat_n_first cat1_first (fun _ => / 2) halves 0%nat up_V up_W [0; 1; 2]%nat
    (KRoot 0) (Some 2%nat) 0 0 1 = Some ([[1; 1]; [3; 3]; [4; 4]], [0; 4; 4])%nat
  /\ exists out evs,
  backward_simulation 0%nat up_pot cat_n_first cat1_first (fun _ => / 2) halves 0%nat up_V up_W [0; 1; 2]%nat
    (KRoot 0) (Some 2%nat) 5 0 1 = Some (out, evs)
  /\ (forall j, (j < 2)%nat -> weighted_particle 0%nat [3; 2]%nat [Fin 0; NInf] (nth j (nth 1 out []) 0%nat)).
Proof.
  split; [reflexivity|].
  destruct (C44_support nat nat 0%nat 0%nat up_pot cat_n_first cat1_first (fun _ => / 2) halves up_V up_W [0; 1; 2]%nat
    (KRoot 0) (Some 2%nat) 5 0 1 2 cat_n_first_ok cat1_first_ok halves_length up_pot_ok up_rows up_reach)
    as (out & evs & E & _ & _ & H & _).
  exists out, evs. split; [exact E|]. apply (H 1%nat ltac:(lia)).
Qed.

(** C44 for filtering followed by backward simulation, all densities positive:
    the simulated states are particles of the filter. *)
Theorem C44_ffbs :
  forall (X Tm : Type) (dx : X) (dt : Tm) pot categorical categorical1 uniform uniform_n (F : pfilter X Tm)
    (ys : list obs) (ts : list Tm) (n_samps : nat) (k : key) (n_pf : option nat)
    (thr : R) (maxrej : nat) (init_bound inflation : R),
  categorical_n_ok categorical -> categorical1_ok categorical1 -> (forall k n, length (uniform_n k n) = n) ->
  (forall x t x' t', finite (pot x t x' t')) ->
  (forall x y t, finite (initial_log_weight F x y t)) ->
  (forall x t x' y t', finite (intermediate_log_weight F x t x' y t')) ->
  let n := match n_pf with Some n => n | None => n_samps end in
  (0 < n)%nat -> ys <> [] -> length ts = length ys ->
  exists p out evs,
  run_particle_filter dx categorical F n ys ts (KSplit k 2 0) thr = Some p
  /\ ffbs dx dt pot categorical categorical1 uniform uniform_n F ys ts n_samps k n_pf thr maxrej init_bound inflation
     = Some (out, evs)
  /\ length out = length ys
  /\ forall s, (s < length ys)%nat -> length (nth s out []) = n_samps
     /\ forall j, (j < n_samps)%nat -> exists i, (i < n)%nat /\ nth j (nth s out []) dx = nth i (nth s (value p) []) dx.
Proof.
  intros X Tm dx dt pot cat cat1 unif unif_n F ys ts ns k npf thr maxrej ib infl Hcat Hcat1 Hun Hpot Hi0 Hi1 n Hn Hy Ht.
  destruct (C43_marginals X Tm dx dt cat F n ys ts (KSplit k 2 0) thr (categorical_n_all _ Hcat) Hy Ht)
    as (p & E & Et & _ & L1 & L2 & L3 & Lv0 & Lw0 & (ks & H0) & _ & Hst).
  destruct (length ys) as [|T] eqn:ET; [destruct ys; [congruence|discriminate]|].
  assert (HL : forall s, (s <= T)%nat -> length (nth s (value p) []) = n /\ length (nth s (log_weight p) []) = n
    /\ forall i, (i < n)%nat -> finite (nth i (nth s (log_weight p) []) NaN)).
  { induction s as [|s IH]; intros Hs.
    - split; [exact Lv0|]. split; [exact Lw0|]. intros i Hi. destruct (H0 i Hi) as [_ ->]. apply Hi0.
    - destruct (IH ltac:(lia)) as (_ & _ & Hf). destruct (Hst s ltac:(lia)) as (A1 & A2 & _ & anc & noise & A3).
      split; [exact A1|]. split; [exact A2|]. intros i Hi. destruct (A3 i Hi) as (_ & _ & _ & _ & B1 & B2).
      destruct (Hi1 (nth (anc i) (nth s (value p) []) dx) (nth s ts dt) (nth i (nth (S s) (value p) []) dx)
                  (nth (S s) ys []) (nth (S s) ts dt)) as [r Er]. rewrite Er in B1, B2.
      destruct (xlt_em (nth s (ess p) NaN) (Fin (thr * INR n))) as [Hlt|Hge].
      + rewrite B1 by exact Hlt. eexists; reflexivity.
      + rewrite B2 by exact Hge. destruct (Hf i Hi) as [r' ->]. eexists; reflexivity. }
  assert (HO : forall s, (s <= T)%nat -> lw_ok (nth s (log_weight p) [])).
  { intros s Hs. destruct (HL s Hs) as (_ & Lw & Hf). split.
    - apply Forall_forall. intros x Hx. apply (In_nth _ _ NaN) in Hx. destruct Hx as (i & Hi & <-). right. apply Hf. lia.
    - apply Exists_exists. exists (nth 0 (nth s (log_weight p) []) NaN). split; [apply nth_In; lia|apply Hf, Hn]. }
  assert (HF : filter_rows (S T) (value p) (log_weight p)).
  { split; [exact L1|]. split; [exact L2|]. intros s Hs. destruct (HL s ltac:(lia)) as (A & B & _).
    split; [congruence|apply HO; lia]. }
  destruct (C44_support X Tm dx dt pot cat cat1 unif unif_n (value p) (log_weight p) (times p) (KSplit k 2 1) (Some ns)
    maxrej ib infl T Hcat Hcat1 Hun) as (out & evs & E' & Lo & _ & Hout & _).
  { intros. left. apply Hpot. } { exact HF. }
  { intros s Hs x1 _. destruct (HL s ltac:(lia)) as (A & B & Hf). exists (nth 0 (nth s (value p) []) dx).
    split; [|apply Hpot]. exists 0%nat. split; [lia|]. split; [reflexivity|].
    rewrite (nth_indep _ NInf NaN) by lia. apply Hf, Hn. }
  exists p, out, evs. split; [exact E|]. split; [unfold ffbs; fold n; rewrite E; exact E'|].
  split; [exact Lo|]. intros s Hs. destruct (Hout s ltac:(lia)) as [A B]. split; [exact A|].
  intros j Hj. destruct (B j Hj) as (i & Hi & -> & _). exists i. destruct (HL s ltac:(lia)) as [<- _].
  split; [exact Hi|reflexivity].
Qed.
Print Assumptions C44_ffbs.

Example C44_ffbs_example :
  exists out evs,
  ffbs 0 0 (s_transition_potential walk_model) cat_n_first cat1_first (fun _ => / 2) halves (bootstrap walk_model)
    [[0]; [3]] [0; 1] 2 (KRoot 0) (Some 3%nat) (-1) 4 0 (101 / 100) = Some (out, evs) /\ length out = 2%nat.
Proof.
  destruct (C44_ffbs R R 0 0 (s_transition_potential walk_model) cat_n_first cat1_first (fun _ => / 2) halves
    (bootstrap walk_model) [[0]; [3]] [0; 1] 2 (KRoot 0) (Some 3%nat) (-1) 4 0 (101 / 100) cat_n_first_ok
    cat1_first_ok halves_length) as (p & out & evs & _ & E & L & _);
    try (intros; eexists; reflexivity); [lia|discriminate|].
  exists out, evs. split; [exact E|exact L].
Qed.

(** C66.  At the end of the loop one bound serves every target: what is returned
    for target [j] either passed the rejection test with that bound, which is at
    least its density, or was drawn from the exact conditional weights. *)
Theorem C66_one_bound :
  forall (X Tm : Type) (dx : X) pot categorical categorical1 uniform uniform_n
    (x0 : list X) (t : Tm) (x1 : list X) (t1 : Tm) (lw : list xr) (k : key)
    (maxrej : nat) (init_bound inflation : R),
  categorical_n_ok categorical -> (forall k n, length (uniform_n k n) = n) ->
  (forall x t x' t', potential_value (pot x t x' t')) ->
  lw <> [] -> x1 <> [] -> 1 <= inflation -> 0 <= init_bound ->
  let n := length x1 in
  let first j := nth (nth j (categorical (KSplit k 3 0) lw n) 0%nat) x0 dx in
  (0 < init_bound \/ exists j, (j < n)%nat /\ finite (pot (first j) t (nth j x1 dx) t1)) ->
  let r := fst (rejection_resampling dx pot categorical categorical1 uniform uniform_n x0 t x1 t1 lw k
                  maxrej init_bound inflation) in
  length r = n
  /\ exists b, 0 < b /\ init_bound <= b /\ forall j, (j < n)%nat ->
     let d := density (pot (nth j r dx) t (nth j x1 dx) t1) in
     (exists u, d <= b /\ u <= d / b
        /\ ((nth j r dx = first j /\ u = nth j (uniform_n (KSplit k 3 1) n) 0)
            \/ exists k', derived (KSplit (KSplit k 3 2) n j) k'
               /\ nth j r dx = nth (categorical1 (KSplit k' 3 1) lw) x0 dx /\ u = uniform (KSplit k' 3 2)))
     \/ exists k' lw', derived (KSplit (KSplit k 3 2) n j) k'
        /\ nth j r dx = nth (categorical1 k' lw') x0 dx
        /\ length lw' = Nat.min (length lw) (length x0)
        /\ forall i, (i < length lw')%nat ->
           nth i lw' NaN = xsub (nth i lw NaN) (pot (nth i x0 dx) t (nth j x1 dx) t1).
Proof.
  intros X Tm dx pot cat cat1 unif unif_n x0 t x1 t1 lw k maxrej ib infl Hcat Hun Hpot Hlw Hx1 Hinfl Hib n first Hpos r.
  assert (Hn : (0 < n)%nat) by (unfold n; destruct x1; [congruence|cbn; lia]).
  assert (Hd : forall x j, xexp (xopp (pot x t (nth j x1 dx) t1)) = Fin (density (pot x t (nth j x1 dx) t1))
                           /\ 0 <= density (pot x t (nth j x1 dx) t1)
                           /\ (finite (pot x t (nth j x1 dx) t1) -> 0 < density (pot x t (nth j x1 dx) t1))).
  { intros x j. destruct (Hpot x t (nth j x1 dx) t1) as [[q ->]| ->]; cbn.
    - split; [reflexivity|]. assert (H := exp_pos (- q)). split; [lra|]. intros _. exact H.
    - split; [reflexivity|]. split; [lra|]. intros [q Hq]. discriminate. }
  destruct (Hcat (KSplit k 3 0) lw n) as (Lc & _); [intros; congruence|].
  assert (Lp : length (take dx x0 (cat (KSplit k 3 0) lw n)) = n) by (rewrite take_length; exact Lc).
  assert (First : forall j, (j < n)%nat -> nth j (take dx x0 (cat (KSplit k 3 0) lw n)) dx = first j).
  { intros j Hj. apply take_nth. lia. }
  destruct (rejection_ok dx (fun k => nth (cat1 k lw) x0 dx) (fun k n => take dx x0 (cat k lw n))
    (fun i a => xexp (xopp (pot a t (nth i x1 dx) t1)))
    (fun i k => full_resample_single dx pot cat1 x0 t (nth i x1 dx) t1 lw k) unif unif_n infl Hinfl)
    with (n := n) (n0 := length x0) (k := k) (maxrej := maxrej) (init_bound := ib)
    as (A1 & _ & b & Hb & Hbb & A2).
  { intros i a. destruct (Hd a i) as (E & H & _). exists (density (pot a t (nth i x1 dx) t1)). split; assumption. }
  { exact Hn. } { exact Lp. } { apply Hun. } { exact Hib. }
  { destruct Hpos as [H|(j & Hj & Hf)]; [left; exact H|right]. exists j, (density (pot (first j) t (nth j x1 dx) t1)).
    split; [exact Hj|]. rewrite First by exact Hj. split; [apply Hd|apply Hd, Hf]. }
  unfold rejection_resampling in r. fold n in r. fold r in A1, A2. split; [exact A1|].
  exists b. split; [exact Hb|]. split; [exact Hbb|]. intros j Hj. cbv zeta.
  destruct (A2 j Hj) as [(u & Hs & (d & Ed & Hdb & Hu))|(k' & Hk & Ef)].
  - left. exists u. destruct (Hd (nth j r dx) j) as (E & _). rewrite E in Ed. injection Ed as <-.
    split; [exact Hdb|]. split; [exact Hu|].
    destruct Hs as [[E1 E2]|(k' & Hk & E1 & E2)].
    + left. rewrite First in E1 by exact Hj. split; [exact E1|exact E2].
    + right. exists k'. split; [exact Hk|]. split; [exact E1|exact E2].
  - right. unfold full_resample_single in Ef.
    eexists k', _. split; [exact Hk|]. split; [exact Ef|]. rewrite map_length, combine_length. split; [reflexivity|].
    intros i Hi. rewrite (nth_map_in _ _ i (NaN, dx)) by (rewrite combine_length; exact Hi).
    assert (N : forall (l : list xr) (m : list X) i, (i < Nat.min (length l) (length m))%nat ->
      nth i (combine l m) (NaN, dx) = (nth i l NaN, nth i m dx)).
    { induction l as [|a l IH]; intros [|c m] [|i'] H; cbn in *; try lia; [reflexivity|apply IH; lia]. }
    rewrite N by exact Hi. reflexivity.
Qed.
Print Assumptions C66_one_bound.

Example C66_example :
  (forall x t x' t', potential_value (up_pot x t x' t'))
  /\ finite (up_pot (nth (nth 0 (cat_n_first (KSplit (KRoot 0) 3 0) [Fin 0; Fin 1] 1) 0%nat) [1; 2]%nat 0%nat) 0 3 1)
  /\ fst (rejection_resampling 0%nat up_pot cat_n_first cat1_first (fun _ => / 2) halves [1; 2]%nat 0%nat [3]%nat 1%nat
       [Fin 0; Fin 1] (KRoot 0) 5 0 (101 / 100)) = [1]%nat.
Proof.
  split; [exact up_pot_ok|]. split; [eexists; reflexivity|].
  destruct (C66_one_bound nat nat 0%nat up_pot cat_n_first cat1_first (fun _ => / 2) halves [1; 2]%nat 0%nat [3]%nat 1%nat
    [Fin 0; Fin 1] (KRoot 0) 5 0 (101 / 100) cat_n_first_ok halves_length up_pot_ok) as (L & b & _ & _ & H);
    try discriminate; try lra.
  { right. exists 0%nat. split; [cbn; lia|]. eexists. reflexivity. }
  set (r := fst _) in *. clearbody r. destruct r as [|a [|b' r]]; try discriminate.
  apply (f_equal (fun z => [z])).
  destruct (H 0%nat ltac:(cbn; lia)) as [(u & _ & _ & [[E1 _]|(k' & _ & E1 & _)])|(k' & lw' & _ & E1 & L' & N)];
    [exact E1|exact E1|].
  cbn in L'. destruct lw' as [|w1 [|w2 [|]]]; try discriminate.
  assert (N0 := N 0%nat ltac:(cbn; lia)). cbn in N0. rewrite N0 in E1. exact E1.
Qed.

(** C67, full resampling: consecutive states of a simulated trajectory have
    positive transition density. *)
Theorem C67_full_partial :
  forall (X Tm : Type) (dx : X) (dt : Tm) pot categorical categorical1 uniform uniform_n
    (V : list (list X)) (W : list (list xr)) (ts : list Tm) (k : key) (n : nat)
    (init_bound inflation : R) (T : nat),
  categorical_n_ok categorical -> categorical1_ok categorical1 ->
  (forall x t x' t', potential_value (pot x t x' t')) ->
  filter_rows (S T) V W ->
  (forall s, (s < T)%nat -> reachable dx pot (nth s V []) (nth s W []) (nth s ts dt)
                                      (nth (S s) V []) (nth (S s) W []) (nth (S s) ts dt)) ->
  exists out evs,
  backward_simulation dx pot categorical categorical1 uniform uniform_n dt V W ts k (Some n) 0 init_bound inflation
    = Some (out, evs)
  /\ forall s j, (s < T)%nat -> (j < n)%nat ->
     0 < density (pot (nth j (nth s out []) dx) (nth s ts dt) (nth j (nth (S s) out []) dx) (nth (S s) ts dt)).
Proof.
  intros X Tm dx dt pot cat cat1 unif unif_n V W ts k n ib infl T Hcat Hcat1 Hpot (LV & LW & Hr) Hre.
  destruct (back_sim_ok dx cat Hcat (body_full dx pot cat1 dt)
      (fun i _ x x' => finite (pot x (nth i ts dt) x' (nth (S i) ts dt))) (fun i => (length (nth 0 V []) * n)%nat) V W ts n k T
      (conj LV (conj LW Hr))) as (out & evs & E & _ & _ & _ & _ & _ & _ & H).
  { intros i x1 Hi L1 H1. destruct (Hr i ltac:(lia)) as [HL HO]. unfold body_full. rewrite <- L1.
    apply (full_step dx pot cat1 Hcat1 Hpot (nth i V []) (nth i ts dt) x1 (nth (S i) ts dt)
             (nth i W []) (KSplit k (S T) i) _ HL HO).
    intros j Hj. apply (Hre i Hi). apply H1. lia. }
  exists out, evs. split; [exact E|]. intros s j Hs Hj. destruct (H s Hs j Hj) as [q ->]. cbn. apply exp_pos.
Qed.
Print Assumptions C67_full_partial.

(** C67, rejection with a positive bound and positive uniforms. *)
Theorem C67_rejection_partial :
  forall (X Tm : Type) (dx : X) (dt : Tm) pot categorical categorical1 uniform uniform_n
    (V : list (list X)) (W : list (list xr)) (ts : list Tm) (k : key) (n maxrej : nat)
    (init_bound inflation : R) (T : nat),
  categorical_n_ok categorical -> categorical1_ok categorical1 -> (forall k n, length (uniform_n k n) = n) ->
  (forall k, 0 < uniform k) -> (forall k n, Forall (fun u => 0 < u) (uniform_n k n)) ->
  (forall x t x' t', potential_value (pot x t x' t')) ->
  filter_rows (S T) V W ->
  (forall s, (s < T)%nat -> reachable dx pot (nth s V []) (nth s W []) (nth s ts dt)
                                      (nth (S s) V []) (nth (S s) W []) (nth (S s) ts dt)) ->
  (0 < n)%nat -> (0 < maxrej)%nat -> 0 < init_bound -> 1 <= inflation ->
  exists out evs,
  backward_simulation dx pot categorical categorical1 uniform uniform_n dt V W ts k (Some n) maxrej init_bound inflation
    = Some (out, evs)
  /\ forall s j, (s < T)%nat -> (j < n)%nat ->
     0 < density (pot (nth j (nth s out []) dx) (nth s ts dt) (nth j (nth (S s) out []) dx) (nth (S s) ts dt)).
Proof.
  intros X Tm dx dt pot cat cat1 unif unif_n V W ts k n maxrej ib infl T Hcat Hcat1 Hun Hu Hus Hpot (LV & LW & Hr) Hre
    Hn Hm Hib Hinfl.
  unfold backward_simulation. destruct (Nat.ltb_spec 0 maxrej) as [_|]; [|lia].
  destruct (back_sim_ok dx cat Hcat (body_rejection dx pot cat cat1 unif unif_n dt maxrej ib infl)
      (fun i _ x x' => 0 < density (pot x (nth i ts dt) x' (nth (S i) ts dt)))
      (fun i => (n * Nat.max 1 maxrej + length (nth i V []) * n)%nat) V W ts n k T
      (conj LV (conj LW Hr))) as (out & evs & E & _ & _ & _ & _ & _ & _ & H).
  { intros i x1 Hi L1 H1. destruct (Hr i ltac:(lia)) as [HL HO]. unfold body_rejection.
    assert (Hreach : forall j, (j < length x1)%nat -> exists x, weighted_particle dx (nth i V []) (nth i W []) x
        /\ finite (pot x (nth i ts dt) (nth j x1 dx) (nth (S i) ts dt))).
    { intros j Hj. apply (Hre i Hi). apply H1. lia. }
    destruct (rejection_step dx pot cat cat1 unif unif_n Hcat Hcat1 Hun Hpot (nth i V []) (nth i ts dt) x1 (nth (S i) ts dt)
               (nth i W []) (KSplit k (S T) i) maxrej ib infl HL HO Hreach) as (A1 & A2 & A3).
    split; [exact A1|]. split; [|rewrite L1 in A3; exact A3].
    intros j Hj. split; [apply A2, Hj|].
    destruct (C66_one_bound X Tm dx pot cat cat1 unif unif_n (nth i V []) (nth i ts dt) x1 (nth (S i) ts dt)
               (nth i W []) (KSplit k (S T) i) maxrej ib infl Hcat Hun Hpot) as (B0 & b & Hb & _ & B1).
    { apply lw_ok_nonempty, HO. } { destruct x1; [cbn in L1; lia|discriminate]. } { exact Hinfl. } { lra. } { left; exact Hib. }
    destruct (B1 j Hj) as [(u & Hd & Hud & Hs)|(k' & lw' & Hk & Ex & Ll & Nl)].
    - assert (0 < u).
      { destruct Hs as [[_ ->]|(k' & _ & _ & ->)]; [|apply Hu].
        specialize (Hus (KSplit (KSplit k (S T) i) 3 1) (length x1)). rewrite Forall_forall in Hus. apply Hus, nth_In.
        rewrite Hun. exact Hj. }
      set (d := density _) in *. apply Rnot_le_lt. intros Hd0.
      assert (d / b <= 0). { unfold Rdiv. assert (0 < / b) by (apply Rinv_0_lt_compat, Hb). nra. } lra.
    - assert (El : lw' = map (fun lx => xsub (fst lx) (pot (snd lx) (nth i ts dt) (nth j x1 dx) (nth (S i) ts dt)))
                             (combine (nth i W []) (nth i V []))).
      { apply (nth_ext _ _ NaN NaN); [rewrite map_length, combine_length; exact Ll|].
        intros m Hmm. rewrite Nl by exact Hmm. rewrite (nth_map_in _ _ m (NaN, dx)) by (rewrite combine_length; lia).
        rewrite combine_nth by lia. reflexivity. }
      destruct (full_single_ok dx pot cat1 Hcat1 Hpot (nth i V []) (nth i ts dt) (nth j x1 dx) (nth (S i) ts dt)
        (nth i W []) k' HL HO (Hreach j Hj)) as [_ Hf].
      unfold full_resample_single in Hf. rewrite <- El, <- Ex in Hf. destruct Hf as [q ->]. cbn. apply exp_pos. }
  exists out, evs. split; [exact E|]. intros s j Hs Hj. exact (H s Hs j Hj).
Qed.
Print Assumptions C67_rejection_partial.

Example C67_example :
  (forall k : key, 0 < (fun _ : key => / 2) k) /\ (forall k n, Forall (fun u => 0 < u) (halves k n))
  /\ exists out evs,
  backward_simulation 0%nat up_pot cat_n_first cat1_first (fun _ => / 2) halves 0%nat up_V up_W [0; 1; 2]%nat
    (KRoot 0) (Some 2%nat) 5 1 (101 / 100) = Some (out, evs)
  /\ (nth 1 (nth 0 out []) 0 <= nth 1 (nth 1 out []) 0)%nat.
Proof.
  assert (Hu : forall k : key, 0 < (fun _ : key => / 2) k) by (intros; lra).
  assert (Hus : forall k n, Forall (fun u => 0 < u) (halves k n)).
  { intros k n. apply Forall_forall. intros u Hin. apply repeat_spec in Hin. subst u. lra. }
  split; [exact Hu|]. split; [exact Hus|].
  destruct (C67_rejection_partial nat nat 0%nat 0%nat up_pot cat_n_first cat1_first (fun _ => / 2) halves up_V up_W
    [0; 1; 2]%nat (KRoot 0) 2 5 1 (101 / 100) 2 cat_n_first_ok cat1_first_ok halves_length Hu Hus up_pot_ok up_rows up_reach)
    as (out & evs & E & H); try lia; try lra.
  exists out, evs. split; [exact E|]. specialize (H 0%nat 1%nat ltac:(lia) ltac:(lia)).
  unfold up_pot in H. destruct (Nat.leb_spec (nth 1 (nth 0 out []) 0%nat) (nth 1 (nth 1 out []) 0%nat)); [assumption|].
  cbn in H. lra.
Qed.

(** C67, rejection with the default bound 0: when every candidate of the first
    round has density 0 the bound stays 0, the ratio is 0/0 and nothing is
    rejected. *)
Definition down_V : list (list nat) := [[5; 1]; [3; 3]]%nat.
Definition down_W : list (list xr) := [[Fin 0; Fin 0]; [Fin 0; Fin 0]].
Theorem C67_default_bound_refuted :
  exists (pot : nat -> nat -> nat -> nat -> xr) categorical categorical1 uniform uniform_n V W k out evs,
  categorical_n_ok categorical /\ categorical1_ok categorical1
  /\ (forall k n, length (uniform_n k n) = n)
  /\ (forall k : key, 0 < uniform k < 1) /\ (forall k n, Forall (fun u => 0 < u < 1) (uniform_n k n))
  /\ (forall x t x' t', potential_value (pot x t x' t'))
  /\ filter_rows 2 V W
  /\ reachable 0%nat pot (nth 0 V []) (nth 0 W []) 0%nat (nth 1 V []) (nth 1 W []) 1%nat
  /\ backward_simulation 0%nat pot categorical categorical1 uniform uniform_n 0%nat V W [0; 1]%nat k None 10 0 (101 / 100)
     = Some (out, evs)
  /\ forall j, (j < 2)%nat -> density (pot (nth j (nth 0 out []) 0) 0 (nth j (nth 1 out []) 0) 1)%nat = 0.
Proof.
  exists up_pot, cat_n_first, cat1_first, (fun _ => / 2), halves, down_V, down_W, (KRoot 0), [[5; 5]; [3; 3]]%nat, [0; 2]%nat.
  split; [exact cat_n_first_ok|]. split; [exact cat1_first_ok|]. split; [exact halves_length|]. split; [intros; lra|].
  split. { intros k n. apply Forall_forall. intros u Hin. apply repeat_spec in Hin. subst u. lra. }
  split; [exact up_pot_ok|].
  assert (O : lw_ok [Fin 0; Fin 0]).
  { split; [repeat (constructor; [right; eexists; reflexivity|]); constructor|].
    apply Exists_cons_hd. eexists; reflexivity. }
  split. { split; [reflexivity|]. split; [reflexivity|]. intros [|[|s]] Hs; [| |lia]; (split; [reflexivity|exact O]). }
  split.
  { intros x1 (i & Hi & -> & _). exists 1%nat. split.
    - exists 1%nat. split; [cbn; lia|]. split; [reflexivity|eexists; reflexivity].
    - destruct i as [|[|i]]; cbn in *; [| |lia]; eexists; reflexivity. }
  split.
  - unfold backward_simulation, back_sim, down_V, down_W. cbn [length nth Nat.ltb Nat.leb].
    unfold take. change (cat_n_first (KSplit (KRoot 0) 2 1) [Fin 0; Fin 0] 2) with [0; 0]%nat.
    cbn [map nth seq rev app back_scan fst snd]. unfold body_rejection, rejection_resampling. cbn [nth length].
    unfold rejection, rej_start. cbn [take]. unfold take.
    change (cat_n_first (KSplit (KSplit (KRoot 0) 2 0) 3 0) [Fin 0; Fin 0] 2) with [0; 0]%nat.
    cbn [map nth seq combine fst snd up_pot Nat.leb].
    change (up_pot 5 0 3 1) with PInf. cbn [xopp xexp].
    cbn [xmaxl fold_right xmax2 xltb].
    assert (E0 : Rltb 0 0 = false) by (destruct (Rltb 0 0) eqn:E; [apply Rltb_true in E; lra|reflexivity]).
    rewrite !E0. cbn [xquot halves repeat combine map fst snd].
    assert (Ed : xdiv (Fin 0) 0 = NaN).
    { unfold xdiv. destruct (Req_EM_T 0 0) as [_|]; [|congruence]. destruct (Rlt_dec 0 0); [lra|reflexivity]. }
    rewrite !Ed. reflexivity.
  - intros [|[|j]] Hj; [| |lia]; reflexivity.
Qed.
Print Assumptions C67_default_bound_refuted.
