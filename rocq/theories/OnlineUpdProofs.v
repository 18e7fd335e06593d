(** Proofs for the law of one update of online smoothing with backward simulation. *)
From Coq Require Import Reals List Arith Bool Lia Lra.
From Verif Require Import XR Keys HmcModel WeightsModel WeightsSpec McmcSpec SmcModel FilterModel FilterProofs UnbSpec UnbProofs KexpSpec KexpProofs
  BackModel BackSpec BackProofs BackProps BackLawSpec RejLawProofs BackLawProofs OnlineModel OnlineLawSpec OnlineLawProofs OnlineLawProps OnlineUpdSpec.
Import ListNotations.
Open Scope R_scope.

Section U.
  Context {W : Type}.
  Variable P : law W.
  Hypothesis HP : prob P.
  Variable sm : sampler W.
  Hypothesis Hsm : sampler_ok sm.
  Context {X Tm : Type}.
  Variables (dx : X) (dt : Tm).
  Variable psamp : X -> Tm -> obs -> Tm -> W -> X.
  Variable inc : X -> Tm -> X -> obs -> Tm -> R.
  Variable F : (key -> W) -> pfilter X Tm.
  Hypothesis HF1 : forall w x t y t' k, proposal_sample (F w) x t y t' k = psamp x t y t' (w k).
  Hypothesis HF2 : forall w x t x' y t', intermediate_log_weight (F w) x t x' y t' = Fin (inc x t x' y t').
  Variable p : particles X Tm.
  Variables (y : obs) (t1 : Tm) (k1 : key) (thr : R) (T : nat).
  Notation V := (value p).
  Notation Wt := (log_weight p).
  Notation xl := (last V []).
  Notation lwl := (last Wt []).
  Notation t0 := (last (times p) dt).
  Notation m := (length xl).
  Notation res := (xltb (last (ess p) NaN) (Fin (thr * INR m))).
  Notation kw := (key -> W).
  Variable plaw : X -> law X.
  Hypothesis Hrows : filter_rows (S T) V Wt.
  Hypothesis Ht : length (times p) = S T.
  Hypothesis He : ess p <> [].

  Definition plwf (x x' : X) : xr := Fin (inc x t0 x' y t1).
  Definition adv (x0 : list X) (lw0 : list xr) (x1 : list X) : particles X Tm :=
    let lw1 := moved_weights dx plwf lw0 x0 x1 in
    Particles (removelast V ++ [x0; x1]) (removelast Wt ++ [lw0; lw1]) (times p ++ [t1])
      (Flat (ravel (observed p) ++ y)) (ess p ++ [ess_log_weight lw1]).
  Definition startx (w : kw) : list X := if res then take dx xl (s_cat sm (w k1) lwl m) else xl.
  Definition startw : list xr := if res then zeros m else lwl.
  Definition prp (w : kw) (x0 : list X) : list X :=
    map (fun xk => psamp (fst xk) t0 y t1 (w (snd xk))) (combine x0 (split_keys k1 m 0 m)).

  Let HV : V <> [].
  Proof. destruct Hrows as (L & _). intros E. rewrite E in L. discriminate. Qed.
  Let HW : Wt <> [].
  Proof. destruct Hrows as (_ & L & _). intros E. rewrite E in L. discriminate. Qed.
  Let HT : times p <> [].
  Proof. intros E. rewrite E in Ht. discriminate. Qed.
  Lemma last_nth {A} (l : list A) d n : length l = S n -> last l d = nth n l d.
  Proof.
    intros L. assert (N : l <> []) by (intros E; rewrite E in L; discriminate).
    destruct (exists_last N) as (l' & a & E). subst l. rewrite last_last, app_length in *. cbn in L.
    rewrite app_nth2 by lia. replace (n - length l')%nat with 0%nat by lia. reflexivity.
  Qed.
  Let Hlw : length lwl = m /\ lw_ok lwl.
  Proof.
    destruct Hrows as (L1 & L2 & H). rewrite (last_nth V [] T L1), (last_nth Wt [] T L2). apply H. lia.
  Qed.
  Lemma m_pos : (0 < m)%nat.
  Proof. destruct Hlw as [L [_ E]]. rewrite <- L. destruct lwl; [inversion E|cbn; lia]. Qed.
  Lemma startx_length w : length (startx w) = m.
  Proof.
    unfold startx. destruct res; [|reflexivity]. unfold take. rewrite map_length.
    destruct (Hsm w) as (_ & H & _). apply (H k1 lwl m). intros E. destruct Hlw as [L _]. rewrite E in L. symmetry. exact L.
  Qed.
  Lemma startw_ok : length startw = m /\ lw_ok startw.
  Proof.
    unfold startw. destruct res; [|exact Hlw]. unfold zeros. rewrite repeat_length. split; [reflexivity|]. pose proof m_pos.
    destruct m as [|m']; [lia|]. cbn [repeat]. split.
    - constructor; [right; eexists; reflexivity|]. apply Forall_forall. intros a Ha. apply repeat_spec in Ha. subst a. right. eexists; reflexivity.
    - apply Exists_cons_hd. eexists; reflexivity.
  Qed.
  Lemma prp_length w x0 : length x0 = m -> length (prp w x0) = m.
  Proof. intros L. unfold prp. rewrite map_length, combine_length, split_keys_length. lia. Qed.

  Lemma weights_eq w lw0 x0 x1 : length lw0 = m -> length x0 = m -> length x1 = m ->
    add_weights lw0 (increments (F w) x0 t0 x1 y t1) = moved_weights dx plwf lw0 x0 x1.
  Proof.
    intros L1 L2 L3. unfold add_weights, increments, moved_weights.
    assert (Lx : length (combine x0 x1) = m) by (rewrite combine_length; lia).
    apply nth_ext with (d := xadd NInf NInf) (d' := xadd NInf NInf).
    { rewrite !map_length, combine_length, map_length, seq_length. lia. }
    intros i Hi. rewrite map_length, combine_length, map_length in Hi.
    rewrite (nth_map_in _ (combine _ _) i (NInf, NInf)) by (rewrite combine_length, map_length; lia).
    rewrite combine_nth by (rewrite map_length; lia). cbn [fst snd].
    rewrite (nth_map_in _ (combine x0 x1) i (dx, dx)) by lia. rewrite combine_nth by lia. cbn [fst snd]. rewrite HF2.
    rewrite (nth_seq _ i (length x0) _) by lia. reflexivity.
  Qed.

  Lemma prop_eq w : propagate_particle_filter dx (fun k => s_cat sm (w k)) (F w) p y t1 k1 thr false
    = Some (adv (startx w) startw (prp w (startx w))).
  Proof.
    unfold propagate_particle_filter. rewrite (at_last_last (ess p) NaN He), (at_last_last V [] HV). cbv zeta.
    pose proof (startx_length w) as Lx. pose proof (proj1 startw_ok) as Lw. unfold startx, startw in *.
    assert (Pe : forall x0, propose (F w) x0 t0 y t1 (split_keys k1 m 0 m) = prp w x0).
    { intros x0. unfold propose, prp. apply map_ext. intros xk. apply HF1. }
    destruct res.
    - unfold resample_particles. rewrite (at_last_last V [] HV), (at_last_last Wt [] HW). cbv zeta. cbn [value log_weight times observed ess].
      unfold set_last. rewrite (at_last_last (removelast V ++ _) []), (at_last_last (removelast Wt ++ _) []), (at_last_last (times p) dt HT), !last_last
        by (intros E; apply app_eq_nil in E; destruct E as [_ E]; discriminate).
      rewrite Pe, weights_eq by (try apply prp_length; assumption).
      unfold adv. rewrite <- !app_assoc. reflexivity.
    - rewrite (at_last_last V [] HV), (at_last_last Wt [] HW), (at_last_last (times p) dt HT).
      rewrite Pe, weights_eq by (try apply prp_length; assumption).
      unfold adv. f_equal. f_equal.
      + rewrite (app_removelast_last [] HV) at 1. rewrite <- app_assoc. reflexivity.
      + rewrite (app_removelast_last [] HW) at 1. rewrite <- app_assoc. reflexivity.
  Qed.

  (** the law of the step *)
  Hypothesis Hplaw : forall x f, mean P (fun z => f (psamp x t0 y t1 z)) = mean (plaw x) f.
  Hypothesis Hres : res = true -> forall phi, mean P (fun x => phi (s_cat sm x lwl m)) = expect (repeat (cat_law lwl) m) phi.
  Lemma prp_drawn : forall c x0, drawn P (map (fun j => KSplit k1 m j) (seq c (length x0)))
    (fun w => map (fun xk => psamp (fst xk) t0 y t1 (w (snd xk))) (combine x0 (map (fun j => KSplit k1 m j) (seq c (length x0)))))
    (expect (map plaw x0)).
  Proof.
    intros c x0. generalize m. intros N. revert c. induction x0 as [|x l IH]; intros c; [apply (drawn_const P HP (@nil X))|].
    cbn [length seq map combine fst snd].
    change (KSplit k1 N c :: map (fun j => KSplit k1 N j) (seq (S c) (length l)))
      with ([KSplit k1 N c] ++ map (fun j => KSplit k1 N j) (seq (S c) (length l))).
    apply (drawn_cons P [KSplit k1 N c] _ (fun w => psamp x t0 y t1 (w (KSplit k1 N c)))).
    - apply (drawn_law P) with (M := fun phi => mean P (fun z => phi (psamp x t0 y t1 z))); [intros phi; apply Hplaw|].
      apply (drawn_key P HP (KSplit k1 N c) (fun z => psamp x t0 y t1 z)).
    - apply IH.
    - intros q [<-|[]] Hq. apply in_map_iff in Hq. destruct Hq as (j & E & Hj). apply in_seq in Hj. injection E as ->. lia.
  Qed.

  Definition step_keys : list key := [k1] ++ map (fun j => KSplit k1 m j) (seq 0 m).
  Lemma step_keys_derived q : In q step_keys -> derived k1 q.
  Proof. intros [<-|H]; [constructor|]. apply in_map_iff in H. destruct H as (j & <- & _). repeat constructor. Qed.

  Definition step_law {B} (f : list X -> list xr -> list X -> B) (phi : B -> R) : R :=
    if res then expect (repeat (cat_law lwl) m) (fun idx => let x0 := take dx xl idx in expect (map plaw x0) (fun x1 => phi (f x0 (zeros m) x1)))
    else expect (map plaw xl) (fun x1 => phi (f xl lwl x1)).

  Lemma step_drawn : drawn P step_keys (fun w => propagate_particle_filter dx (fun k => s_cat sm (w k)) (F w) p y t1 k1 thr false)
    (step_law (fun x0 lw0 x1 => Some (adv x0 lw0 x1))).
  Proof.
    apply (drawn_ext P) with (a := fun w => Some (adv (startx w) startw (prp w (startx w)))); [intros w; symmetry; apply prop_eq|].
    apply (drawn_law P) with (M := fun phi => (if res then expect (repeat (cat_law lwl) m) (fun idx => (fun x0 => expect (map plaw x0) (fun x1 => phi (Some (adv x0 startw x1)))) (take dx xl idx))
      else (fun x0 => expect (map plaw x0) (fun x1 => phi (Some (adv x0 startw x1)))) xl)).
    { intros phi. unfold step_law, startw. destruct res; reflexivity. }
    unfold step_keys.
    pose proof (drawn_bind P [k1] (map (fun j => KSplit k1 m j) (seq 0 m)) startx (fun x0 w => Some (adv x0 startw (prp w x0)))
      (fun phi => if res then expect (repeat (cat_law lwl) m) (fun idx => phi (take dx xl idx)) else phi xl)
      (fun x0 phi => expect (map plaw x0) (fun x1 => phi (Some (adv x0 startw x1))))) as HB.
    eapply drawn_law; [|apply HB; clear HB].
    - intros phi. cbv beta. destruct res; reflexivity.
    - unfold startx. destruct res eqn:Er.
      + apply (drawn_law P) with (M := fun phi => mean P (fun x => phi (take dx xl (s_cat sm x lwl m)))).
        { intros phi. apply (Hres eq_refl (fun idx => phi (take dx xl idx))). }
        apply (drawn_key P HP k1 (fun x => take dx xl (s_cat sm x lwl m))).
      + apply (drawn_incl P) with (ks := []); [intros q []|]. apply (drawn_const P HP xl).
    - intros q [<-|[]] H. apply in_map_iff in H. destruct H as (j & E & _). assert (S : ksize (KSplit k1 m j) = ksize k1) by (rewrite E; reflexivity). cbn in S. lia.
    - intros w. set (x0 := startx w). assert (L0 : length x0 = m) by apply startx_length. clearbody x0.
      apply (drawn_map P _ (fun w => prp w x0) (fun x1 => Some (adv x0 startw x1)) (expect (map plaw x0))).
      pose proof (prp_drawn 0 x0) as D. rewrite L0 in D. exact D.
  Qed.
End U.

(** * Rows after the step *)
Lemma removelast_nth {A} (l : list A) d n s : length l = S n -> (s < n)%nat -> nth s (removelast l) d = nth s l d.
Proof.
  intros L Hs. assert (N : l <> []) by (intros E; rewrite E in L; discriminate).
  rewrite (app_removelast_last d N) at 2. rewrite app_nth1; [reflexivity|].
  assert (E : length (removelast l) = n).
  { pose proof (f_equal (@length A) (app_removelast_last d N)) as E. rewrite app_length in E. cbn in E. lia. }
  lia.
Qed.
Lemma removelast_length {A} (l : list A) n : length l = S n -> length (removelast l) = n.
Proof.
  intros L. destruct l as [|a l]; [discriminate|]. pose proof (f_equal (@length A) (app_removelast_last a (l := a :: l) ltac:(discriminate))) as E.
  rewrite app_length in E. cbn [length] in E, L. lia.
Qed.
Lemma skip_nth {A} (l : list A) s i d : nth i (skipn s l) d = nth (s + i) l d.
Proof.
  revert l. induction s as [|s IH]; intros l; [reflexivity|]. destruct l as [|a l]; [destruct i; reflexivity|]. cbn. apply IH.
Qed.
Lemma skip_rows {X} N s (V : list (list X)) W : filter_rows (S N) V W -> (s <= N)%nat -> filter_rows (S (N - s)) (skipn s V) (skipn s W).
Proof.
  intros (L1 & L2 & H) Hs. split; [rewrite skipn_length; lia|]. split; [rewrite skipn_length; lia|].
  intros i Hi. rewrite !skip_nth. apply H. lia.
Qed.
Lemma lw_ok_particle {X} (dx : X) row lw : length lw = length row -> lw_ok lw -> exists x, weighted_particle dx row lw x.
Proof.
  intros L [_ E]. apply Exists_exists in E. destruct E as (a & Ha & Fa). destruct (In_nth lw a NInf Ha) as (i & Hi & Ei).
  exists (nth i row dx), i. rewrite <- L. split; [exact Hi|]. split; [reflexivity|]. rewrite Ei. exact Fa.
Qed.
Lemma all_reachable {X Tm} (dx : X) (dt : Tm) tp N V W (ts : list Tm) : filter_rows (S N) V W ->
  forall s, (s < N)%nat -> reachable dx (fun x t x' t' => Fin (tp x t x' t')) (nth s V []) (nth s W []) (nth s ts dt) (nth (S s) V []) (nth (S s) W []) (nth (S s) ts dt).
Proof.
  intros (L1 & L2 & H) s Hs x1 _. destruct (H s ltac:(lia)) as [HL HO].
  destruct (lw_ok_particle dx (nth s V []) _ HL HO) as [x0 H0]. exists x0. split; [exact H0|]. eexists; reflexivity.
Qed.

Lemma moved_ok {X} (dx : X) (c : X -> X -> R) lw0 x0 x1 : length lw0 = length x0 -> lw_ok lw0 ->
  lw_ok (moved_weights dx (fun x x' => Fin (c x x')) lw0 x0 x1).
Proof.
  intros L [H1 H2]. unfold moved_weights. split.
  - apply Forall_forall. intros a Ha. apply in_map_iff in Ha. destruct Ha as (i & <- & Hi). apply in_seq in Hi.
    rewrite Forall_forall in H1. destruct (H1 (nth i lw0 NInf)) as [E|[r E]]; [apply nth_In; lia| |]; rewrite E; cbn; [left; reflexivity|right; eexists; reflexivity].
  - apply Exists_exists in H2. destruct H2 as (a & Ha & [r Er]). destruct (In_nth lw0 a NInf Ha) as (i & Hi & Ei).
    apply Exists_exists. exists (xadd (nth i lw0 NInf) (Fin (c (nth i x0 dx) (nth i x1 dx)))). split.
    + apply in_map_iff. exists i. split; [reflexivity|]. apply in_seq. lia.
    + rewrite Ei, Er. eexists; reflexivity.
Qed.

Lemma adv_rows {X Tm} (dx : X) (dt : Tm) inc (p : particles X Tm) y t1 T x0 lw0 x1 : filter_rows (S T) (value p) (log_weight p) ->
  length lw0 = length x0 -> lw_ok lw0 -> length x1 = length x0 ->
  filter_rows (S (S T)) (value (adv dx dt inc p y t1 x0 lw0 x1)) (log_weight (adv dx dt inc p y t1 x0 lw0 x1)).
Proof.
  intros (L1 & L2 & H) Lw O L. unfold adv. cbn [value log_weight].
  pose proof (removelast_length _ T L1) as R1. pose proof (removelast_length _ T L2) as R2.
  split; [rewrite app_length; cbn; lia|]. split; [rewrite app_length; cbn; lia|].
  intros s Hs. destruct (Nat.lt_ge_cases s T) as [C|C].
  - rewrite !app_nth1 by lia. rewrite (removelast_nth _ _ T), (removelast_nth _ _ T) by assumption. apply H. lia.
  - rewrite !app_nth2 by lia. rewrite R1, R2. assert (E : (s - T = 0 \/ s - T = 1)%nat) by lia. destruct E as [-> | ->]; cbn [nth].
    + split; assumption.
    + split; [unfold moved_weights; rewrite map_length, seq_length; symmetry; exact L|]. apply moved_ok; assumption.
Qed.

(** * Keys *)
Definition stitch_keys (n maxrej : nat) (k : key) : list key :=
  match maxrej with O => map (fun j => KSplit k n j) (seq 0 n) | S _ => rej_keys n maxrej k end.
Definition window_keys (n maxrej T : nat) (k : key) : list key :=
  sim_keys (match maxrej with O => full_keys n | S _ => rej_keys n maxrej end) T k.
Lemma window_keys_derived n maxrej T k q : In q (window_keys n maxrej T k) -> derived k q.
Proof.
  unfold window_keys, sim_keys. intros [<-|H]; [repeat constructor|]. apply in_flat_map in H. destruct H as (i & _ & H).
  apply (derived_trans _ (KSplit k (S T) i)); [repeat constructor|]. destruct maxrej as [|r].
  - apply in_map_iff in H. destruct H as (j & <- & _). repeat constructor.
  - apply rej_keys_derived in H. exact H.
Qed.
(** away from the children of a four-fold split *)
Lemma stitch_keys_apart n maxrej k i q : (0 < maxrej)%nat \/ n <> 4%nat -> In q (stitch_keys n maxrej k) -> derived (KSplit k 4 i) q -> False.
Proof.
  intros C H D. destruct maxrej as [|r].
  - destruct C as [C|C]; [lia|]. apply in_map_iff in H. destruct H as (j & <- & _). apply derived_split_inv in D. lia.
  - assert (E : exists j, derived (KSplit k 3 j) q).
    { cbn [stitch_keys] in H. unfold rej_keys in H. destruct H as [<-|[<-|H]]; [exists 0%nat; constructor|exists 1%nat; constructor|].
      exists 2%nat. apply in_flat_map in H. destruct H as (q' & Hq & H). apply chain_derived in H.
      apply in_map_iff in Hq. destruct Hq as (j & <- & _). apply (derived_trans _ (KSplit (KSplit k 3 2) n j)); [repeat constructor|exact H]. }
    destruct E as [j E]. apply (incomp_children k 3 j 4 i ltac:(left; lia) q E D).
Qed.

(** * Stitching and the window, with their keys *)
Section D.
  Context {W : Type}.
  Variable P : law W.
  Hypothesis HP : prob P.
  Variable sm : sampler W.
  Hypothesis Hsm : sampler_ok sm.
  Context {X Tm : Type}.
  Variables (dx : X) (dt : Tm).
  Variable tp : X -> Tm -> X -> Tm -> R.
  Notation pot := (fun x t x' t' => Fin (tp x t x' t')).
  Variables (b infl : R) (maxrej : nat).
  Hypothesis Hb : (0 < maxrej)%nat -> 0 < b /\ forall x t x' t', exp (- tp x t x' t') <= b.
  Notation cat w := (fun k : key => s_cat sm (w k : W)).
  Notation cat1 w := (fun k : key => s_cat1 sm (w k : W)).
  Notation un w := (fun k : key => s_unif sm (w k : W)).
  Notation unn w := (fun k : key => s_unifn sm (w k : W)).

  Lemma window_drawn V Wt ts N n k : filter_rows (S N) V Wt ->
    cat_faithful P sm (drawn_from dx dt pot V Wt ts N) n ->
    ((0 < maxrej)%nat -> unif_faithful P sm (ratio dx dt pot V Wt ts N b) n) ->
    drawn P (window_keys n maxrej N k)
      (fun w => option_map fst (backward_simulation dx pot (cat w) (cat1 w) (un w) (unn w) dt V Wt ts k (Some n) maxrej b infl))
      (fun phi => smoothing_mean dx dt pot V Wt ts N n (fun rows => phi (Some rows))).
  Proof.
    intros HR HC HU. unfold backward_simulation, window_keys.
    assert (Hp : forall x t x' t', FilterSpec.potential_value (pot x t x' t')) by (intros; left; eexists; reflexivity).
    pose proof (all_reachable dx dt tp N V Wt ts HR) as Hre.
    destruct maxrej as [|r].
    - exact (full_sim_drawn P HP sm Hsm dx dt pot Hp V Wt ts N n HR Hre HC k).
    - destruct (Hb ltac:(lia)) as [Hb0 Hb1].
      apply (rejection_sim_drawn P HP sm Hsm dx dt pot Hp V Wt ts N n HR Hre HC b infl (S r) Hb0); [|apply HU; lia].
      intros s x0 x1 _ _ _. apply Hb1.
  Qed.

  Lemma stitch_drawn early t t1 xv x1 rest n k : (0 < n)%nat -> early <> [] -> length (last early []) = n -> length xv = n -> length x1 = n ->
    cat_faithful P sm (stitch_from dx pot t t1 xv x1 (repeat (Fin 0) n) (last early [])) n ->
    ((0 < maxrej)%nat -> unif_faithful P sm (stitch_ratio dx pot t t1 x1 (repeat (Fin 0) n) (last early []) b) n) ->
    drawn P (stitch_keys n maxrej k) (stitch sm dx pot early t (xv :: x1 :: rest) (repeat (Fin 0) n) t1 maxrej b infl k)
      (fun phi => stitch_mean dx pot t t1 early (xv :: x1 :: rest) (repeat (Fin 0) n) (fun rows => phi (Some rows))).
  Proof.
    intros Hn Ne Le Lv L1 HC HU.
    assert (Hp : forall x t x' t', FilterSpec.potential_value (pot x t x' t')) by (intros; left; eexists; reflexivity).
    assert (Z : forall a, (a < n)%nat -> finite (nth a (repeat (Fin 0) n) NInf)).
    { intros a Ha. assert (I : In (nth a (repeat (Fin 0) n) NInf) (repeat (Fin 0) n)) by (apply nth_In; rewrite repeat_length; exact Ha).
      apply repeat_spec in I. rewrite I. eexists; reflexivity. }
    assert (Hs : stitchable dx pot t t1 xv x1 (repeat (Fin 0) n) (last early [])).
    { unfold stitchable. rewrite repeat_length. split; [exact Lv|]. split; [exact L1|]. split.
      - split; [apply Forall_forall; intros a Ha; apply repeat_spec in Ha; subst a; right; eexists; reflexivity|].
        apply Exists_exists. exists (Fin 0). split; [|eexists; reflexivity]. destruct n; [lia|]. left. reflexivity.
      - split; [intros; eexists; reflexivity|]. intros x0 _. exists 0%nat. split; [exact Hn|]. split; [apply Z, Hn|eexists; reflexivity]. }
    assert (Ll : length (repeat (Fin 0) n) = n) by apply repeat_length.
    assert (HC' : cat_faithful P sm (stitch_from dx pot t t1 xv x1 (repeat (Fin 0) n) (last early [])) (length (repeat (Fin 0) n))) by (rewrite Ll; exact HC).
    unfold stitch_mean. cbn [nth List.tl].
    destruct maxrej as [|r].
    - cbn [stitch_keys].
      apply (drawn_ext P) with (a := fun w => Some (early ++ map (fun row => take dx row
        (full_stitch pot (cat1 w) (last early []) t x1 t1 (free_lw dx pot t t1 xv x1 (repeat (Fin 0) n)) k)) (x1 :: rest))).
      { intros w. unfold stitch, fixed_lag_stitching. rewrite (at_last_last early [] Ne). cbv zeta. cbn [Nat.ltb Nat.leb fst option_map].
        change (nth_clamp 1 (xv :: x1 :: rest) []) with x1. rewrite (free_eq dx pot t t1 xv x1 (repeat (Fin 0) n) (last early []) Hs). reflexivity. }
      apply (drawn_map P _ _ (fun idx => Some (early ++ map (fun row => take dx row idx) (x1 :: rest))) (expect (map (stitch_law dx pot t t1 xv x1 (repeat (Fin 0) n)) (last early [])))).
      pose proof (full_stitch_drawn P HP sm dx pot Hp t t1 xv x1 (repeat (Fin 0) n) (last early []) Hs HC' k (length (last early [])) 0 (last early []) (incl_refl _)) as D.
      rewrite Le in D. unfold full_stitch, split_keys. rewrite Le. exact D.
    - destruct (Hb ltac:(lia)) as [Hb0 Hb1].
      apply (drawn_ext P) with (a := fun w => Some (early ++ map (fun row => take dx row
        (fst (rejection_stitching dx pot (cat w) (cat1 w) (un w) (unn w)
           (last early []) t x1 t1 (free_lw dx pot t t1 xv x1 (repeat (Fin 0) n)) k (S r) b infl))) (x1 :: rest))).
      { intros w. unfold stitch, fixed_lag_stitching. rewrite (at_last_last early [] Ne). cbv zeta. cbn [Nat.ltb Nat.leb fst option_map].
        change (nth_clamp 1 (xv :: x1 :: rest) []) with x1. rewrite (free_eq dx pot t t1 xv x1 (repeat (Fin 0) n) (last early []) Hs). reflexivity. }
      apply (drawn_map P _ _ (fun idx => Some (early ++ map (fun row => take dx row idx) (x1 :: rest))) (expect (map (stitch_law dx pot t t1 xv x1 (repeat (Fin 0) n)) (last early [])))).
      pose proof (rejection_stitch_drawn P HP sm Hsm dx pot Hp t t1 xv x1 (repeat (Fin 0) n) (last early []) Hs HC' ltac:(rewrite Ll; exact Le) b infl (S r) Hb0) as D.
      rewrite Ll in D. apply D; [intros x0 a _ _ _; apply Hb1|apply HU; lia].
  Qed.
End D.
