(** Proofs about the law of backward simulation. *)
From Coq Require Import Reals List Arith Bool Lia Lra FunctionalExtensionality.
From Verif Require Import XR Keys HmcModel WeightsSpec McmcSpec SmcModel FilterModel FilterSpec FilterProofs UnbSpec UnbProofs KexpSpec KexpProofs
  BackModel BackSpec BackProofs BackLawSpec RejLawProofs.
Import ListNotations.
Open Scope R_scope.

Lemma Forall2_length_eq {A B} (Q : A -> B -> Prop) l m : List.Forall2 Q l m -> length l = length m.
Proof. induction 1; cbn; congruence. Qed.

Lemma mean_push {A B} (d : law A) (g : A -> B) phi : mean d (fun x => phi (g x)) = mean (map (fun ap => (g (fst ap), snd ap)) d) phi.
Proof. unfold mean. rewrite map_map. reflexivity. Qed.
Lemma expect_push {A B} (ds : list (law A)) (g : A -> B) phi :
  expect ds (fun l => phi (map g l)) = expect (map (fun d => map (fun ap => (g (fst ap), snd ap)) d) ds) phi.
Proof.
  revert phi. induction ds as [|d ds IH]; intros phi; cbn [expect map]; [reflexivity|].
  etransitivity; [|apply (mean_push d g (fun b => expect (map (fun d => map (fun ap => (g (fst ap), snd ap)) d) ds) (fun l => phi (b :: l))))].
  apply mean_fext. intros a. apply (IH (fun l => phi (g a :: l))).
Qed.

Lemma weight_nonneg x : 0 <= weight x.
Proof. destruct x; cbn; try lra. left. apply exp_pos. Qed.
Lemma Rsum_nonneg l : (forall x, In x l -> 0 <= x) -> 0 <= Rsum l.
Proof. induction l as [|a l IH]; cbn; intros H; [lra|]. assert (0 <= a) by auto. assert (0 <= Rsum l) by auto. lra. Qed.
Lemma Rsum_ge l x : (forall x, In x l -> 0 <= x) -> In x l -> x <= Rsum l.
Proof.
  induction l as [|a l IH]; cbn; intros H; [tauto|]. assert (0 <= a) by auto. assert (0 <= Rsum l) by (apply Rsum_nonneg; auto).
  intros [->|I]; [lra|]. assert (x <= Rsum l) by auto. lra.
Qed.
Lemma weights_pos lw : lw_ok lw -> 0 < Rsum (weights lw).
Proof.
  intros [_ E]. apply Exists_exists in E. destruct E as (x & Hx & [r ->]).
  apply Rlt_le_trans with (weight (Fin r)); [apply exp_pos|]. apply Rsum_ge.
  - intros y Hy. apply in_map_iff in Hy. destruct Hy as (z & <- & _). apply weight_nonneg.
  - apply in_map, Hx.
Qed.
Lemma density_nonneg u : 0 <= density u.
Proof. destruct u; cbn; try lra. left. apply exp_pos. Qed.
Lemma density_pos u : finite u -> 0 < density u.
Proof. intros [r ->]. apply exp_pos. Qed.

Lemma weights_seq lw : weights lw = map (fun i => weight (nth i lw NInf)) (seq 0 (length lw)).
Proof.
  unfold weights. induction lw as [|x l IH]; [reflexivity|]. cbn. f_equal.
  rewrite IH, <- seq_shift, map_map. reflexivity.
Qed.

(** the keys of a simulation over the times 0 to [T] whose steps use the keys [kb] *)
Definition sim_keys (kb : key -> list key) (T : nat) (k : key) : list key :=
  [KSplit k (S T) T] ++ flat_map (fun ind => kb (KSplit k (S T) ind)) (rev (seq 0 T)).
Definition full_keys (n : nat) (k : key) : list key := map (fun j => KSplit k n j) (seq 0 n).

Section B.
  Context {W : Type}.
  Variable P : law W.
  Hypothesis HP : prob P.
  Variable sm : sampler W.
  Hypothesis Hsm : sampler_ok sm.
  Context {X Tm : Type}.
  Variable dx : X.
  Variable dt : Tm.
  Variable pot : X -> Tm -> X -> Tm -> xr.
  Hypothesis Hpot : forall x t x' t', potential_value (pot x t x' t').
  Variable V : list (list X).
  Variable Wt : list (list xr).
  Variable ts : list Tm.
  Variables T n : nat.
  Hypothesis Hrows : filter_rows (S T) V Wt.
  Hypothesis Hreach : forall s, (s < T)%nat -> reachable dx pot (nth s V []) (nth s Wt []) (nth s ts dt)
                                      (nth (S s) V []) (nth (S s) Wt []) (nth (S s) ts dt).
  Hypothesis Hcat : cat_faithful P sm (drawn_from dx dt pot V Wt ts T) n.

  Notation wp s := (weighted_particle dx (nth s V []) (nth s Wt [])).
  Notation cat w := (fun k => s_cat sm (w k)).
  Notation cat1 w := (fun k => s_cat1 sm (w k)).
  Notation un w := (fun k => s_unif sm (w k)).
  Notation unn w := (fun k => s_unifn sm (w k)).
  Notation kw := (key -> W).

  Lemma row_ok s : (s <= T)%nat -> length (nth s Wt []) = length (nth s V []) /\ lw_ok (nth s Wt []).
  Proof. intros H. apply Hrows. lia. Qed.

  Lemma cat_particle s phi : (s <= T)%nat ->
    mean (cat_law (nth s Wt [])) (fun i => phi (nth i (nth s V []) dx)) = mean (particle_law dx V Wt s) phi.
  Proof.
    intros H. rewrite (mean_push _ (fun i => nth i (nth s V []) dx)). unfold cat_law, particle_law.
    rewrite map_map. destruct (row_ok s H) as [-> _]. reflexivity.
  Qed.
  Lemma cat_particles s phi : (s <= T)%nat ->
    expect (repeat (cat_law (nth s Wt [])) n) (fun idx => phi (take dx (nth s V []) idx)) = expect (repeat (particle_law dx V Wt s) n) phi.
  Proof.
    intros H. unfold take. rewrite (expect_push _ (fun i => nth i (nth s V []) dx)), map_repeat.
    f_equal. f_equal. unfold cat_law, particle_law. rewrite map_map. destruct (row_ok s H) as [-> _]. reflexivity.
  Qed.
  Lemma particle_prob s : (s <= T)%nat -> prob (particle_law dx V Wt s).
  Proof.
    intros H. destruct (row_ok s H) as [L O]. unfold prob, particle_law. rewrite map_map. cbn [snd].
    pose proof (weights_pos _ O) as Z.
    rewrite (Rsum_ext _ (fun i => / Rsum (weights (nth s Wt [])) * weight (nth i (nth s Wt []) NInf))) by (intros; unfold Rdiv; lra).
    rewrite Rsum_scal, <- L, <- weights_seq. field. lra.
  Qed.

  Notation bw s x1 := (back_weight dx dt pot V Wt ts s x1).
  Lemma back_pos s x1 : (s < T)%nat -> wp (S s) x1 -> 0 < Rsum (map (bw s x1) (seq 0 (length (nth s V [])))).
  Proof.
    intros H H1. destruct (Hreach s H x1 H1) as (x0 & (i & Hi & -> & Hf) & Hd).
    apply Rlt_le_trans with (bw s x1 i).
    - unfold back_weight. apply Rmult_lt_0_compat; [|apply density_pos, Hd]. destruct Hf as [r ->]. apply exp_pos.
    - apply Rsum_ge.
      + intros y Hy. apply in_map_iff in Hy. destruct Hy as (z & <- & _). unfold back_weight.
        apply Rmult_le_pos; [apply weight_nonneg|apply density_nonneg].
      + apply in_map_iff. exists i. split; [reflexivity|]. apply in_seq. lia.
  Qed.

  Definition blw (s : nat) (x1 : X) : list xr :=
    map (fun lx => xsub (fst lx) (pot (snd lx) (nth s ts dt) x1 (nth (S s) ts dt))) (combine (nth s Wt []) (nth s V [])).
  Lemma blw_length s x1 : (s <= T)%nat -> length (blw s x1) = length (nth s V []).
  Proof. intros H. destruct (row_ok s H) as [L _]. unfold blw. rewrite map_length, combine_length. lia. Qed.
  Lemma blw_weight s x1 i : (s <= T)%nat -> (i < length (nth s V []))%nat -> weight (nth i (blw s x1) NInf) = bw s x1 i.
  Proof.
    intros H Hi. destruct (row_ok s H) as [L [O _]]. unfold blw.
    rewrite (nth_map_in _ _ i (NInf, dx)) by (rewrite combine_length; lia).
    rewrite combine_nth by exact L. cbn [fst snd]. unfold back_weight.
    rewrite Forall_forall in O. assert (Hj : In (nth i (nth s Wt []) NInf) (nth s Wt [])) by (apply nth_In; lia).
    destruct (O _ Hj) as [->|[r ->]]; destruct (Hpot (nth i (nth s V []) dx) (nth s ts dt) x1 (nth (S s) ts dt)) as [[q ->]| ->];
      cbn; try lra. rewrite <- exp_plus. reflexivity.
  Qed.
  Lemma cat_back s x1 phi : (s < T)%nat ->
    mean (cat_law (blw s x1)) (fun i => phi (nth i (nth s V []) dx)) = mean (back_law dx dt pot V Wt ts s x1) phi.
  Proof.
    intros H. rewrite (mean_push _ (fun i => nth i (nth s V []) dx)). unfold cat_law, back_law. cbv zeta.
    rewrite map_map, blw_length by lia. f_equal. apply map_ext_in. intros i Hi. apply in_seq in Hi. cbn [fst snd].
    rewrite blw_weight by lia. f_equal. f_equal. rewrite weights_seq, blw_length by lia. f_equal.
    apply map_ext_in. intros j Hj. apply in_seq in Hj. apply blw_weight; lia.
  Qed.

  Lemma full_law s x1 phi : (s < T)%nat -> wp (S s) x1 ->
    mean P (fun x => phi (nth (s_cat1 sm x (blw s x1)) (nth s V []) dx)) = mean (back_law dx dt pot V Wt ts s x1) phi.
  Proof.
    intros H H1. rewrite <- cat_back by exact H.
    apply (proj1 (Hcat (blw s x1) (or_intror (ex_intro _ s (ex_intro _ x1 (conj H (conj H1 eq_refl)))))) (fun i => phi (nth i (nth s V []) dx))).
  Qed.

  (** * Full resampling *)
  Lemma full_drawn k m : forall c x1 s, (s < T)%nat -> List.Forall (wp (S s)) x1 ->
    drawn P (map (fun j => KSplit k m j) (seq c (length x1)))
      (fun w => map (fun xk => full_resample_single dx pot (cat1 w) (nth s V []) (nth s ts dt) (fst xk) (nth (S s) ts dt) (nth s Wt []) (snd xk))
        (combine x1 (map (fun j => KSplit k m j) (seq c (length x1)))))
      (expect (map (back_law dx dt pot V Wt ts s) x1)).
  Proof.
    intros c x1. revert c. induction x1 as [|x x1 IH]; intros c s H F.
    - apply (drawn_const P HP (@nil X)).
    - inversion F as [|? ? F1 F2]; subst. cbn [length seq map combine fst snd].
      change (KSplit k m c :: map (fun j => KSplit k m j) (seq (S c) (length x1)))
        with ([KSplit k m c] ++ map (fun j => KSplit k m j) (seq (S c) (length x1))).
      apply (drawn_cons P [KSplit k m c] _
        (fun w => full_resample_single dx pot (cat1 w) (nth s V []) (nth s ts dt) x (nth (S s) ts dt) (nth s Wt []) (KSplit k m c))).
      + apply (drawn_law P) with (M := fun phi => mean P (fun y => phi (nth (s_cat1 sm y (blw s x)) (nth s V []) dx))).
        { intros phi. apply full_law; assumption. }
        apply (drawn_key P HP (KSplit k m c) (fun y => nth (s_cat1 sm y (blw s x)) (nth s V []) dx)).
      + apply IH; assumption.
      + intros q [<-|[]] Hq. apply in_map_iff in Hq. destruct Hq as (j & E & Hj). apply in_seq in Hj. injection E as ->. lia.
  Qed.

  (** * The scan over times *)
  Variable body : kw -> list (list X) -> list (list xr) -> list Tm -> key -> nat -> list X -> list X * nat.
  Variable kb : key -> list key.
  Hypothesis Hkb : forall k x, In x (kb k) -> derived k x.
  Hypothesis Hbody : forall k s x1, (s < T)%nat -> length x1 = n -> List.Forall (wp (S s)) x1 ->
    drawn P (kb k) (fun w => fst (body w V Wt ts k s x1)) (expect (map (back_law dx dt pot V Wt ts s) x1))
    /\ forall w, length (fst (body w V Wt ts k s x1)) = n /\ List.Forall (wp s) (fst (body w V Wt ts k s x1)).

  Lemma scan_drawn k m : forall s x1, (s <= T)%nat -> length x1 = n -> List.Forall (wp s) x1 ->
    drawn P (flat_map (fun ind => kb (KSplit k m ind)) (rev (seq 0 s)))
      (fun w => rev (map fst (back_scan (fun ind => body w V Wt ts (KSplit k m ind) ind) (rev (seq 0 s)) x1)) ++ [x1])
      (back_mean dx dt pot V Wt ts s x1).
  Proof.
    induction s as [|s IH]; intros x1 H L F.
    - apply (drawn_const P HP [x1]).
    - rewrite seq_S, rev_app_distr. change ([(0 + s)%nat]) with [s]. cbn [rev app back_scan flat_map map back_mean].
      destruct (Hbody (KSplit k m s) s x1 ltac:(lia) L F) as [HB HR].
      pose proof (drawn_bind P (kb (KSplit k m s)) (flat_map (fun ind => kb (KSplit k m ind)) (rev (seq 0 s)))
        (fun w => fst (body w V Wt ts (KSplit k m s) s x1))
        (fun ys w => (rev (map fst (back_scan (fun ind => body w V Wt ts (KSplit k m ind) ind) (rev (seq 0 s)) ys)) ++ [ys]) ++ [x1])
        (expect (map (back_law dx dt pot V Wt ts s) x1))
        (fun ys phi => back_mean dx dt pot V Wt ts s ys (fun rows => phi (rows ++ [x1])))) as HH.
      cbv beta in HH. apply HH; clear HH.
      + exact HB.
      + intros q Hq Hq'. apply in_flat_map in Hq'. destruct Hq' as (j & Hj & Hq').
        apply in_rev, in_seq in Hj.
        apply (incomp_children k m s m j ltac:(lia) q (Hkb _ _ Hq) (Hkb _ _ Hq')).
      + intros w. destruct (HR w) as [L' F'].
        apply (drawn_map P _ _ (fun rows => rows ++ [x1]) _ (IH _ ltac:(lia) L' F')).
  Qed.

  Theorem back_sim_drawn k :
    drawn P (sim_keys kb T k)
      (fun w => option_map fst (back_sim dx (cat w) (body w) V Wt ts n k))
      (fun phi => smoothing_mean dx dt pot V Wt ts T n (fun rows => phi (Some rows))).
  Proof.
    destruct Hrows as (LV & LW & _). unfold sim_keys.
    apply (drawn_ext P) with (a := fun w => Some
      (rev (map fst (back_scan (fun ind => body w V Wt ts (KSplit k (S T) ind) ind) (rev (seq 0 T))
          (take dx (nth T V []) (s_cat sm (w (KSplit k (S T) T)) (nth T Wt []) n))))
       ++ [take dx (nth T V []) (s_cat sm (w (KSplit k (S T) T)) (nth T Wt []) n)])).
    { intros w. unfold back_sim. rewrite LV. reflexivity. }
    pose proof (drawn_bind P [KSplit k (S T) T] (flat_map (fun ind => kb (KSplit k (S T) ind)) (rev (seq 0 T)))
      (fun w => take dx (nth T V []) (s_cat sm (w (KSplit k (S T) T)) (nth T Wt []) n))
      (fun xs w => Some (rev (map fst (back_scan (fun ind => body w V Wt ts (KSplit k (S T) ind) ind) (rev (seq 0 T)) xs)) ++ [xs]))
      (expect (repeat (particle_law dx V Wt T) n))
      (fun xs phi => back_mean dx dt pot V Wt ts T xs (fun rows => phi (Some rows)))) as HH.
    cbv beta in HH. apply HH; clear HH.
    - apply (drawn_law P) with (M := fun phi => mean P (fun x => phi (take dx (nth T V []) (s_cat sm x (nth T Wt []) n)))).
      { intros phi. rewrite <- cat_particles by lia.
        apply (proj2 (Hcat (nth T Wt []) (or_introl (ex_intro _ T (conj (le_n T) eq_refl)))) (fun idx => phi (take dx (nth T V []) idx))). }
      apply (drawn_key P HP (KSplit k (S T) T) (fun x => take dx (nth T V []) (s_cat sm x (nth T Wt []) n))).
    - intros q [<-|[]] Hq. apply in_flat_map in Hq. destruct Hq as (j & Hj & Hq). apply in_rev, in_seq in Hj.
      apply Hkb, derived_split_inv in Hq. lia.
    - intros w. destruct (row_ok T (le_n T)) as [L O].
      destruct (pick_n_ok dx (cat w) (proj1 (proj2 (Hsm w))) (nth T V []) (nth T Wt []) (KSplit k (S T) T) n L O) as [L' F'].
      apply (drawn_map P _ _ (@Some _) _ (scan_drawn k (S T) T _ (le_n T) L' F')).
  Qed.
End B.

Section Bodies.
  Context {W : Type}.
  Variable P : law W.
  Hypothesis HP : prob P.
  Variable sm : sampler W.
  Hypothesis Hsm : sampler_ok sm.
  Context {X Tm : Type}.
  Variable dx : X.
  Variable dt : Tm.
  Variable pot : X -> Tm -> X -> Tm -> xr.
  Hypothesis Hpot : forall x t x' t', potential_value (pot x t x' t').
  Variable V : list (list X).
  Variable Wt : list (list xr).
  Variable ts : list Tm.
  Variables T n : nat.
  Hypothesis Hrows : filter_rows (S T) V Wt.
  Hypothesis Hreach : forall s, (s < T)%nat -> reachable dx pot (nth s V []) (nth s Wt []) (nth s ts dt)
                                      (nth (S s) V []) (nth (S s) Wt []) (nth (S s) ts dt).
  Hypothesis Hcat : cat_faithful P sm (drawn_from dx dt pot V Wt ts T) n.
  Notation wp s := (weighted_particle dx (nth s V []) (nth s Wt [])).
  Notation cat w := (fun k => s_cat sm (w k)).
  Notation cat1 w := (fun k => s_cat1 sm (w k)).
  Notation un w := (fun k => s_unif sm (w k)).
  Notation unn w := (fun k => s_unifn sm (w k)).

  Lemma forall_nth (Q : X -> Prop) l : (forall j, (j < length l)%nat -> Q (nth j l dx)) -> List.Forall Q l.
  Proof. intros H. apply Forall_forall. intros x Hx. destruct (In_nth _ _ dx Hx) as (j & Hj & <-). apply H, Hj. Qed.

  Lemma full_sim_drawn k :
    drawn P (sim_keys (full_keys n) T k) (fun w => option_map fst (back_sim dx (cat w) (body_full dx pot (cat1 w) dt) V Wt ts n k))
      (fun phi => smoothing_mean dx dt pot V Wt ts T n (fun rows => phi (Some rows))).
  Proof.
    apply (back_sim_drawn P HP sm Hsm dx dt pot V Wt ts T n Hrows Hcat
      (fun w => body_full dx pot (cat1 w) dt) (full_keys n)).
    - intros q x Hx. apply in_map_iff in Hx. destruct Hx as (j & <- & _). constructor. constructor.
    - intros q s x1 Hs L F. split.
      + unfold body_full, full_resampling, split_keys. cbn [fst]. rewrite <- L.
        apply (full_drawn P HP sm dx dt pot Hpot V Wt ts T n Hrows Hcat q (length x1) 0 x1 s Hs F).
      + intros w. destruct (Hrows) as (_ & _ & Hr). destruct (Hr s ltac:(lia)) as [HL HO].
        destruct (full_step dx pot (cat1 w) (proj1 (Hsm w)) Hpot (nth s V []) (nth s ts dt) x1 (nth (S s) ts dt) (nth s Wt []) q 0%nat HL HO) as (A1 & A2 & _).
        { intros j Hj. apply (Hreach s Hs). rewrite Forall_forall in F. apply F, nth_In, Hj. }
        split; [cbn [fst body_full] in *; lia|]. apply forall_nth. intros j Hj. apply A2.
        cbn [fst body_full] in *. rewrite <- A1. exact Hj.
  Qed.

  Variables (b infl : R) (maxrej : nat).
  Hypothesis Hb : 0 < b.
  Hypothesis Hbound : forall s x0 x1, (s < T)%nat -> wp s x0 -> wp (S s) x1 ->
    density (pot x0 (nth s ts dt) x1 (nth (S s) ts dt)) <= b.
  Hypothesis Hunif : unif_faithful P sm (ratio dx dt pot V Wt ts T b) n.

  Lemma rejection_sim_drawn k :
    drawn P (sim_keys (rej_keys n maxrej) T k) (fun w => option_map fst (back_sim dx (cat w)
        (body_rejection dx pot (cat w) (cat1 w) (un w) (unn w) dt maxrej b infl) V Wt ts n k))
      (fun phi => smoothing_mean dx dt pot V Wt ts T n (fun rows => phi (Some rows))).
  Proof.
    apply (back_sim_drawn P HP sm Hsm dx dt pot V Wt ts T n Hrows Hcat
      (fun w => body_rejection dx pot (cat w) (cat1 w) (un w) (unn w) dt maxrej b infl) (rej_keys n maxrej)).
    - intros q x. apply rej_keys_derived.
    - intros q s x1 Hs L F. destruct Hrows as (_ & _ & Hr). destruct (Hr s ltac:(lia)) as [HL HO].
      assert (Hre : forall j, (j < length x1)%nat -> exists x, weighted_particle dx (nth s V []) (nth s Wt []) x
        /\ finite (pot x (nth s ts dt) (nth j x1 dx) (nth (S s) ts dt))).
      { intros j Hj. apply (Hreach s Hs). rewrite Forall_forall in F. apply F, nth_In, Hj. }
      split.
      + unfold body_rejection, rejection_resampling.
        assert (E : map (back_law dx dt pot V Wt ts s) x1 = map (fun i => back_law dx dt pot V Wt ts s (nth i x1 dx)) (seq 0 n)).
        { rewrite <- L. clear. induction x1 as [|x l IH]; [reflexivity|]. cbn. f_equal. rewrite IH, <- seq_shift, map_map. reflexivity. }
        rewrite E, L.
        set (lwr := nth s Wt []) in *. set (row := nth s V []) in *.
        assert (Wx1 : forall i, (i < n)%nat -> wp (S s) (nth i x1 dx)).
        { intros i Hi. rewrite Forall_forall in F. apply F, nth_In. lia. }
        assert (LF : drawn_from dx dt pot V Wt ts T lwr).
        { left. exists s. split; [lia|reflexivity]. }
        apply (rejection_drawn P HP (fun x => nth (s_cat1 sm x lwr) row dx) (fun x m => take dx row (s_cat sm x lwr m))
          (fun i a => xexp (xopp (pot a (nth s ts dt) (nth i x1 dx) (nth (S s) ts dt))))
          (fun i x => nth (s_cat1 sm x (blw dt pot V Wt ts s (nth i x1 dx))) row dx)
          (s_unif sm) (s_unifn sm) infl b
          (fun i a => density (pot a (nth s ts dt) (nth i x1 dx) (nth (S s) ts dt)))
          (weighted_particle dx row lwr) (particle_law dx V Wt s)
          (fun i => back_law dx dt pot V Wt ts s (nth i x1 dx)) Hb).
        * intros i a _. destruct (Hpot a (nth s ts dt) (nth i x1 dx) (nth (S s) ts dt)) as [[p ->]| ->]; reflexivity.
        * intros i a Hi Ha. apply (Hbound s); [exact Hs|exact Ha|apply Wx1, Hi].
        * apply (particle_prob dx V Wt T Hrows). lia.
        * intros x. apply (pick_ok dx (cat1 (fun _ => x)) (proj1 (Hsm (fun _ => x))) row lwr (KRoot 0) HL HO).
        * intros phi. rewrite <- (cat_particle dx V Wt T Hrows) by lia.
          apply (proj1 (Hcat lwr LF) (fun i => phi (nth i row dx))).
        * intros x. apply (pick_n_ok dx (cat (fun _ => x)) (proj1 (proj2 (Hsm (fun _ => x)))) row lwr (KRoot 0) n HL HO).
        * intros phi. rewrite <- (cat_particles dx V Wt T n Hrows) by lia.
          apply (proj2 (Hcat lwr LF) (fun idx => phi (take dx row idx))).
        * intros i a phi Hi Ha. apply (proj1 Hunif). exists s, a, (nth i x1 dx).
          split; [exact Hs|]. split; [exact Ha|]. split; [apply Wx1, Hi|reflexivity].
        * intros x. apply (proj2 (proj2 (Hsm (fun _ => x))) (KRoot 0) n).
        * intros as_ phi La Fa. apply (proj2 Hunif).
          -- rewrite map_length, combine_length, seq_length. lia.
          -- apply Forall_forall. intros y Hy. apply in_map_iff in Hy. destruct Hy as ([i a] & <- & Hia).
             exists s, a, (nth i x1 dx). split; [exact Hs|]. split.
             { rewrite Forall_forall in Fa. apply Fa. apply (in_combine_r _ _ _ _ Hia). }
             split; [|reflexivity]. apply Wx1. apply in_combine_l, in_seq in Hia. lia.
        * intros i phi Hi.
          pose proof (back_pos dx dt pot V Wt ts T Hreach s (nth i x1 dx) Hs (Wx1 i Hi)) as Zb.
          pose proof (weights_pos _ HO) as Zw. fold row in Zb.
          assert (E1 : forall f, mean (particle_law dx V Wt s) (fun a => density (pot a (nth s ts dt) (nth i x1 dx) (nth (S s) ts dt)) * f a)
            = / Rsum (weights lwr) * Rsum (map (fun j => back_weight dx dt pot V Wt ts s (nth i x1 dx) j * f (nth j row dx)) (seq 0 (length row)))).
          { intros f. unfold mean, particle_law. rewrite map_map, <- Rsum_scal. apply Rsum_ext. intros j _. cbn [fst snd].
            unfold back_weight. fold lwr row. field. lra. }
          rewrite E1.
          rewrite (mean_fext (particle_law dx V Wt s) (fun a => density (pot a (nth s ts dt) (nth i x1 dx) (nth (S s) ts dt))) (fun a => density (pot a (nth s ts dt) (nth i x1 dx) (nth (S s) ts dt)) * 1)) by (intros; lra).
          rewrite (E1 (fun _ => 1)). unfold mean, back_law. fold row. cbv zeta. rewrite map_map. cbn [fst snd].
          rewrite (Rsum_ext (fun j => back_weight dx dt pot V Wt ts s (nth i x1 dx) j * 1) (back_weight dx dt pot V Wt ts s (nth i x1 dx))) by (intros; lra).
          set (bwf := back_weight dx dt pot V Wt ts s (nth i x1 dx)) in *.
          rewrite (Rsum_ext (fun j => bwf j / Rsum (map bwf (seq 0 (length row))) * phi (nth j row dx))
            (fun j => / Rsum (map bwf (seq 0 (length row))) * (bwf j * phi (nth j row dx)))) by (intros; unfold Rdiv; lra).
          rewrite Rsum_scal. field. lra.
        * intros i phi Hi. apply (full_law P sm dx dt pot Hpot V Wt ts T n Hrows Hcat s (nth i x1 dx) phi Hs (Wx1 i Hi)).
      + intros w. destruct (Hsm w) as (S1 & S2 & S3).
        destruct (rejection_step dx pot (cat w) (cat1 w) (un w) (unn w) S2 S1 S3 Hpot (nth s V []) (nth s ts dt) x1 (nth (S s) ts dt)
          (nth s Wt []) q maxrej b infl HL HO Hre) as (A1 & A2 & _).
        split; [unfold body_rejection; lia|]. apply forall_nth. intros j Hj. apply A2. rewrite <- A1. exact Hj.
  Qed.
End Bodies.
