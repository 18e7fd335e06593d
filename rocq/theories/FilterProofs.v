(** Proofs for the particle filter. *)
From Coq Require Import Reals List Arith Lia Lra.
From Verif Require Import XR Keys HmcModel WeightsModel WeightsSpec WeightsProofs McmcSpec McmcProofs SmcSpec
  FilterModel FilterSpec.
Import ListNotations.
Open Scope R_scope.

Lemma xltb_xlt a b : xltb a b = true <-> xlt a b.
Proof.
  destruct a, b; cbn; try (split; [discriminate|tauto]); try (split; intros; [exact I|reflexivity]).
  apply Rltb_true.
Qed.
Lemma xltb_nlt a b : xltb a b = false <-> ~ xlt a b.
Proof. rewrite <- xltb_xlt. destruct (xltb a b); split; intros; congruence. Qed.

Lemma at_last_app {A} (l : list A) a : at_last (l ++ [a]) = Some a.
Proof. unfold at_last. rewrite rev_app_distr. reflexivity. Qed.
Lemma at_last_some {A} (l : list A) a : at_last l = Some a -> exists l', l = l' ++ [a].
Proof.
  unfold at_last. destruct (rev l) eqn:E; [discriminate|]. intros [= <-].
  exists (rev l0). rewrite <- (rev_involutive l), E. reflexivity.
Qed.
Lemma set_last_app {A} (l : list A) a b : set_last (l ++ [a]) b = l ++ [b].
Proof. unfold set_last. rewrite removelast_last. reflexivity. Qed.

Lemma split_keys_length k n i len : length (split_keys k n i len) = len.
Proof. unfold split_keys. rewrite map_length, seq_length. reflexivity. Qed.
Lemma split_keys_nth k n len i d : (i < len)%nat -> nth i (split_keys k n 0 len) d = KSplit k n i.
Proof.
  intros H. unfold split_keys.
  rewrite (nth_indep _ d (KSplit k n 0)) by (rewrite map_length, seq_length; exact H).
  rewrite (map_nth (fun j => KSplit k n j)), seq_nth by exact H. reflexivity.
Qed.

Lemma nth_map_in {A B} (f : A -> B) l i da db : (i < length l)%nat -> nth i (map f l) db = f (nth i l da).
Proof.
  intros H. rewrite (nth_indep _ db (f da)) by (rewrite map_length; exact H). apply map_nth.
Qed.

Section P.
  Context {X Tm : Type}.
  Variable dx : X.
  Variable categorical : key -> list xr -> nat -> list nat.
  Hypothesis Hcat : categorical_ok categorical.
  Variable F : pfilter X Tm.

  Lemma propose_length x t0 y t1 ks : length ks = length x -> length (propose F x t0 y t1 ks) = length x.
  Proof. intros H. unfold propose. rewrite map_length, combine_length. lia. Qed.
  Lemma propose_nth x t0 y t1 ks i dk : length ks = length x -> (i < length x)%nat ->
    nth i (propose F x t0 y t1 ks) dx = proposal_sample F (nth i x dx) t0 y t1 (nth i ks dk).
  Proof.
    intros H Hi. unfold propose. rewrite (nth_map_in _ _ i (dx, dk)) by (rewrite combine_length; lia).
    rewrite combine_nth by lia. reflexivity.
  Qed.
  Lemma increments_length x t0 x' y t1 : length x' = length x -> length (increments F x t0 x' y t1) = length x.
  Proof. intros H. unfold increments. rewrite map_length, combine_length. lia. Qed.
  Lemma increments_nth x t0 x' y t1 i : length x' = length x -> (i < length x)%nat ->
    nth i (increments F x t0 x' y t1) NaN = intermediate_log_weight F (nth i x dx) t0 (nth i x' dx) y t1.
  Proof.
    intros H Hi. unfold increments. rewrite (nth_map_in _ _ i (dx, dx)) by (rewrite combine_length; lia).
    rewrite combine_nth by lia. reflexivity.
  Qed.
  Lemma add_weights_length a b : length a = length b -> length (add_weights a b) = length a.
  Proof. intros H. unfold add_weights. rewrite map_length, combine_length. lia. Qed.
  Lemma add_weights_nth a b i : length a = length b -> (i < length a)%nat ->
    nth i (add_weights a b) NaN = xadd (nth i a NaN) (nth i b NaN).
  Proof.
    intros H Hi. unfold add_weights. rewrite (nth_map_in _ _ i (NaN, NaN)) by (rewrite combine_length; lia).
    rewrite combine_nth by lia. reflexivity.
  Qed.
  Lemma zeros_nth n i : (i < n)%nat -> nth i (zeros n) NaN = Fin 0.
  Proof. intros H. unfold zeros. rewrite (nth_indep _ NaN (Fin 0)) by (rewrite repeat_length; exact H). apply nth_repeat. Qed.
  Lemma zeros_length n : length (zeros n) = n.
  Proof. apply repeat_length. Qed.

  Lemma take_length x inds : length (take dx x inds) = length inds.
  Proof. apply map_length. Qed.
  Lemma take_nth x inds i : (i < length inds)%nat -> nth i (take dx x inds) dx = nth (nth i inds 0%nat) x dx.
  Proof. intros H. unfold take. apply (nth_map_in (fun i => nth i x dx) inds i 0%nat dx H). Qed.

  Lemma cat_nth k lw n i : length lw = n -> (i < n)%nat ->
    (nth i (categorical k lw n) 0 < n)%nat
    /\ (lw_ok lw -> finite (nth (nth i (categorical k lw n) 0%nat) lw NInf)).
  Proof.
    intros Hl Hi. destruct (Hcat k lw n Hl) as (L & R1 & R2). split.
    - rewrite Forall_forall in R1. apply R1, nth_In. lia.
    - intros H. specialize (R2 H). rewrite Forall_forall in R2. apply R2, nth_In. lia.
  Qed.

  (** both programs do this *)
  Lemma step_core (res : bool) (n : nat) x0 lw0 t0 y t1 k :
    length x0 = n -> length lw0 = n ->
    let inds := categorical k lw0 n in
    let xr_ := if res then take dx x0 inds else x0 in
    let lwr := if res then zeros n else lw0 in
    let x1 := propose F xr_ t0 y t1 (split_keys k n 0 n) in
    let lw1 := add_weights lwr (increments F xr_ t0 x1 y t1) in
    filter_step dx (proposal_sample F) (intermediate_log_weight F) n (res = true) x0 lw0 t0 y t1
      x1 lw1 (ess_log_weight lw1).
  Proof.
    intros Lx Ll inds xr_ lwr x1 lw1.
    assert (Li : length inds = n) by apply (Hcat k lw0 n Ll).
    assert (Lr : length xr_ = n) by (unfold xr_; destruct res; [rewrite take_length; exact Li|exact Lx]).
    assert (Lw : length lwr = n) by (unfold lwr; destruct res; [apply zeros_length|exact Ll]).
    assert (L1 : length x1 = n) by (unfold x1; rewrite propose_length; rewrite ?split_keys_length; auto).
    assert (Lc : length (increments F xr_ t0 x1 y t1) = n) by (rewrite increments_length; lia).
    split; [exact L1|]. split; [unfold lw1; rewrite add_weights_length; lia|]. split; [apply ess_kish|].
    exists (fun i => if res then nth i inds 0%nat else i), (fun i => KSplit k n i).
    intros i Hi. destruct (cat_nth k lw0 n i Ll Hi) as [C1 C2]. fold inds in C1, C2.
    assert (Ex : nth i xr_ dx = nth (if res then nth i inds 0%nat else i) x0 dx).
    { unfold xr_. destruct res; [apply take_nth; lia|reflexivity]. }
    split; [destruct res; [exact C1|exact Hi]|]. split; [intros H ->; apply C2, H|].
    split; [destruct res; congruence|].
    assert (Ew : nth i lw1 NaN = xadd (nth i lwr NaN)
              (intermediate_log_weight F (nth (if res then nth i inds 0%nat else i) x0 dx) t0 (nth i x1 dx) y t1)).
    { unfold lw1. rewrite add_weights_nth by lia. rewrite increments_nth by lia. rewrite Ex. reflexivity. }
    split; [|split].
    - unfold x1. rewrite (propose_nth _ _ _ _ _ i (KRoot 0)) by (rewrite ?split_keys_length; lia).
      rewrite Ex, split_keys_nth by exact Hi. reflexivity.
    - intros ->. rewrite Ew. unfold lwr. rewrite zeros_nth by exact Hi. reflexivity.
    - intros H. destruct res; [congruence|]. rewrite Ew. reflexivity.
  Qed.

  Definition marg_ok (n : nat) (s : marginal X Tm) : Prop := length (m_value s) = n /\ length (m_lw s) = n.

  Lemma filter_step_iff n (P Q : Prop) x0 lw0 t0 y t1 x1 lw1 e1 :
    (P <-> Q) ->
    filter_step dx (proposal_sample F) (intermediate_log_weight F) n P x0 lw0 t0 y t1 x1 lw1 e1 ->
    filter_step dx (proposal_sample F) (intermediate_log_weight F) n Q x0 lw0 t0 y t1 x1 lw1 e1.
  Proof.
    intros HPQ (A & B & C & anc & noise & D). split; [exact A|]. split; [exact B|]. split; [exact C|].
    exists anc, noise. intros i Hi. destruct (D i Hi) as (D1 & D2 & D3 & D4 & D5 & D6). repeat split; tauto.
  Qed.

  Lemma filter_body_ok thr n s y t1 k : marg_ok n s ->
    let s' := filter_body dx categorical F thr n s y t1 k in
    marg_ok n s' /\ m_t s' = t1 /\ m_y s' = y
    /\ filter_step dx (proposal_sample F) (intermediate_log_weight F) n (xlt (m_ess s) (Fin (thr * INR n)))
         (m_value s) (m_lw s) (m_t s) y t1 (m_value s') (m_lw s') (m_ess s').
  Proof.
    intros [Lx Ll] s'.
    assert (H := step_core (xltb (m_ess s) (Fin (thr * INR n))) n (m_value s) (m_lw s) (m_t s) y t1 k Lx Ll).
    cbv zeta in H. unfold s', filter_body, resample_row. rewrite Lx. cbn [m_value m_lw m_t m_y m_ess].
    split; [split; apply H|]. split; [reflexivity|]. split; [reflexivity|].
    eapply filter_step_iff; [apply xltb_xlt|exact H].
  Qed.

  Lemma filter_scan_ok thr n : forall yts ks s, marg_ok n s -> length ks = length yts ->
    let ms := filter_scan dx categorical F thr n s yts ks in
    length ms = length yts
    /\ map m_y ms = map fst yts /\ map m_t ms = map snd yts
    /\ Forall (marg_ok n) (s :: ms)
    /\ forall i, (i < length yts)%nat ->
       let a := nth i (s :: ms) s in let b := nth (S i) (s :: ms) s in
       filter_step dx (proposal_sample F) (intermediate_log_weight F) n (xlt (m_ess a) (Fin (thr * INR n)))
         (m_value a) (m_lw a) (m_t a) (m_y b) (m_t b) (m_value b) (m_lw b) (m_ess b).
  Proof.
    induction yts as [|[y t] yts IH]; intros ks s Hs Hk.
    - cbn. split; [reflexivity|]. split; [reflexivity|]. split; [reflexivity|].
      split; [constructor; auto|]. intros i Hi. lia.
    - destruct ks as [|k ks]; [discriminate|]. cbn [filter_scan].
      destruct (filter_body_ok thr n s y t k Hs) as (B1 & B2 & B3 & B4).
      set (s' := filter_body dx categorical F thr n s y t k) in *.
      destruct (IH ks s' B1 ltac:(cbn in Hk; lia)) as (L & Ey & Et & Fm & St).
      set (ms := filter_scan dx categorical F thr n s' yts ks) in *. cbv zeta. clearbody ms s'.
      split; [cbn; rewrite L; reflexivity|]. split; [cbn; rewrite Ey, B3; reflexivity|].
      split; [cbn; rewrite Et, B2; reflexivity|]. split; [constructor; assumption|].
      intros [|i] Hi.
      + cbn [nth]. rewrite B3, B2. exact B4.
      + specialize (St i ltac:(cbn in Hi; lia)). cbv zeta in St.
        rewrite (nth_indep (s' :: ms) s' s) in St by (cbn; cbn in Hi; lia).
        change (nth (S (S i)) (s :: s' :: ms) s) with (nth (S i) (s' :: ms) s).
        rewrite (nth_indep (s' :: ms) s' s) in St by (cbn; cbn in Hi; lia).
        exact St.
  Qed.

  (** * propagate_particle_filter *)

  Definition shaped (n T : nat) (p : particles X Tm) : Prop :=
    length (value p) = T /\ Forall (fun r => length r = n) (value p)
    /\ length (log_weight p) = T /\ Forall (fun r => length r = n) (log_weight p)
    /\ length (times p) = T /\ length (ess p) = T.

  Definition at_ (p : particles X Tm) (s i : nat) : X := nth i (nth s (value p) []) dx.
  Definition lw_at (p : particles X Tm) (s : nat) : list xr := nth s (log_weight p) [].

  Lemma last_split {A} (l : list A) T : length l = S T -> exists l' a, l = l' ++ [a] /\ length l' = T.
  Proof.
    intros H. destruct (rev l) as [|a r] eqn:E.
    - apply (f_equal (@length A)) in E. rewrite rev_length in E. cbn in E. lia.
    - exists (rev r), a. assert (El : l = rev (a :: r)) by (rewrite <- E, rev_involutive; reflexivity).
      split; [exact El|]. rewrite El in H. cbn in H. rewrite app_length, rev_length in H. cbn in H.
      rewrite rev_length. lia.
  Qed.

  Lemma Forall_last {A} (P : A -> Prop) l a : Forall P (l ++ [a]) -> Forall P l /\ P a.
  Proof. intros H. apply Forall_app in H. destruct H as [H1 H2]. inversion H2. auto. Qed.

  Lemma nth_last {A} (l : list A) a d T : length l = T -> nth T (l ++ [a]) d = a.
  Proof. intros <-. rewrite app_nth2, Nat.sub_diag by lia. reflexivity. Qed.

  Lemma propagate_ok n T p y t1 k thr full dt : shaped n (S T) p ->
    exists p' x1 lw1 e1,
    propagate_particle_filter dx categorical F p y t1 k thr full = Some p'
    /\ shaped n (S (S T)) p' /\ times p' = times p ++ [t1]
    /\ nth (S T) (value p') [] = x1 /\ nth (S T) (log_weight p') [] = lw1 /\ ess p' = ess p ++ [e1]
    /\ observed p' = Flat (ravel (observed p) ++ y)
    /\ filter_step dx (proposal_sample F) (intermediate_log_weight F) n
         (xlt (nth T (ess p) NaN) (Fin (thr * INR n))) (nth T (value p) []) (lw_at p T) (nth T (times p) dt)
         y t1 x1 lw1 e1
    /\ (forall i, (i < n)%nat ->
          at_ p' (S T) i = proposal_sample F (at_ p' T i) (nth T (times p) dt) y t1 (KSplit k n i))
    /\ (forall s, (s < T)%nat -> lw_at p' s = lw_at p s)
    /\ (~ xlt (nth T (ess p) NaN) (Fin (thr * INR n)) ->
        lw_at p' T = lw_at p T /\ forall s, (s <= T)%nat -> nth s (value p') [] = nth s (value p) [])
    /\ (xlt (nth T (ess p) NaN) (Fin (thr * INR n)) ->
        lw_at p' T = repeat (Fin 0) n
        /\ exists anc : nat -> nat, (forall i, (i < n)%nat -> (anc i < n)%nat)
           /\ (forall i, (i < n)%nat -> lw_ok (lw_at p T) -> finite (nth (anc i) (lw_at p T) NInf))
           /\ forall s i, (s <= T)%nat -> (i < n)%nat ->
              at_ p' s i = at_ p s (if orb full (Nat.eqb s T) then anc i else i)).
  Proof.
    intros (LV & FV & LW & FW & LT & LE).
    destruct p as [v lw ts obsd es]. cbn [value log_weight times ess observed] in *.
    destruct (last_split v T LV) as (v' & xl & -> & LV').
    destruct (last_split lw T LW) as (lw' & lwl & -> & LW').
    destruct (last_split ts T LT) as (ts' & t0 & -> & LT').
    destruct (last_split es T LE) as (es' & e & -> & LE').
    destruct (Forall_last _ _ _ FV) as [FV' Lx]. destruct (Forall_last _ _ _ FW) as [FW' Ll].
    cbn beta in Lx, Ll.
    unfold propagate_particle_filter. cbn [value log_weight times ess observed].
    rewrite !at_last_app. rewrite Lx.
    set (inds := categorical k lwl n).
    assert (Li : length inds = n) by apply (Hcat k lwl n Ll).
    set (res := xltb e (Fin (thr * INR n))).
    assert (Eq : exists q, (if res then resample_particles dx categorical
        {| value := v' ++ [xl]; log_weight := lw' ++ [lwl]; times := ts' ++ [t0]; observed := obsd; ess := es' ++ [e] |}
        k full else Some {| value := v' ++ [xl]; log_weight := lw' ++ [lwl]; times := ts' ++ [t0]; observed := obsd; ess := es' ++ [e] |})
      = Some q
      /\ q = Particles
          ((if res then if full then map (fun r => take dx r inds) v' else v' else v')
           ++ [if res then take dx xl inds else xl])
          (lw' ++ [if res then zeros n else lwl]) (ts' ++ [t0]) obsd (es' ++ [e])).
    { destruct res; [|eexists; split; reflexivity].
      unfold resample_particles. cbn [value log_weight times observed ess]. rewrite !at_last_app, Lx.
      eexists. split; [reflexivity|]. fold inds. rewrite !set_last_app.
      destruct full; [rewrite map_app|]; reflexivity. }
    destruct Eq as (q & -> & ->). cbn [value log_weight times observed ess]. rewrite !at_last_app.
    set (vv := if res then if full then map (fun r => take dx r inds) v' else v' else v').
    set (xr_ := if res then take dx xl inds else xl).
    set (lwr := if res then zeros n else lwl).
    assert (LVV : length vv = T) by (unfold vv; destruct res, full; rewrite ?map_length; exact LV').
    assert (Core := step_core res n xl lwl t0 y t1 k Lx Ll). cbv zeta in Core. fold inds xr_ lwr in Core.
    set (x1 := propose F xr_ t0 y t1 (split_keys k n 0 n)) in *.
    set (lw1 := add_weights lwr (increments F xr_ t0 x1 y t1)) in *.
    assert (Lr : length xr_ = n) by (unfold xr_; destruct res; [rewrite take_length; exact Li|exact Lx]).
    assert (Lwr : length lwr = n) by (unfold lwr; destruct res; [apply zeros_length|exact Ll]).
    eexists; exists x1, lw1, (ess_log_weight lw1). split; [reflexivity|].
    unfold shaped, lw_at, at_. cbn [value log_weight times observed ess].
    assert (Nt : nth T (es' ++ [e]) NaN = e) by (apply nth_last; exact LE').
    assert (Ntm : nth T (ts' ++ [t0]) dt = t0) by (apply nth_last; exact LT').
    assert (Nx : nth T (v' ++ [xl]) [] = xl) by (apply nth_last; exact LV').
    assert (Nl : nth T (lw' ++ [lwl]) [] = lwl) by (apply nth_last; exact LW').
    rewrite Nt, Ntm, Nx, Nl.
    assert (N1 : nth (S T) ((vv ++ [xr_]) ++ [x1]) [] = x1) by (apply nth_last; rewrite app_length; cbn; lia).
    assert (N2 : nth (S T) ((lw' ++ [lwr]) ++ [lw1]) [] = lw1) by (apply nth_last; rewrite app_length; cbn; lia).
    assert (NR : nth T ((vv ++ [xr_]) ++ [x1]) [] = xr_)
      by (rewrite app_nth1 by (rewrite app_length; cbn; lia); apply nth_last; exact LVV).
    assert (NRl : nth T ((lw' ++ [lwr]) ++ [lw1]) [] = lwr)
      by (rewrite app_nth1 by (rewrite app_length; cbn; lia); apply nth_last; exact LW').
    split.
    { rewrite !app_length. cbn [length]. repeat split; try lia.
      - rewrite !Forall_app. repeat split; auto.
        + unfold vv. destruct res, full; auto. apply Forall_forall. intros r Hr. apply in_map_iff in Hr.
          destruct Hr as (r0 & <- & _). rewrite take_length. exact Li.
        + constructor; [apply Core|constructor].
      - rewrite !Forall_app. repeat split; auto. constructor; [apply Core|constructor]. }
    split; [reflexivity|]. split; [exact N1|]. split; [exact N2|]. split; [reflexivity|]. split; [reflexivity|].
    split; [eapply filter_step_iff; [apply xltb_xlt|exact Core]|].
    split.
    { intros i Hi. rewrite N1, NR. unfold x1.
      rewrite (propose_nth _ _ _ _ _ i (KRoot 0)) by (rewrite ?split_keys_length; lia).
      rewrite split_keys_nth by exact Hi. reflexivity. }
    split.
    { intros s Hs. rewrite <- app_assoc, app_nth1, app_nth1 by lia. reflexivity. }
    split.
    - intros Hn. apply xltb_nlt in Hn. fold res in Hn. rewrite NRl. unfold lwr. rewrite Hn.
      split; [reflexivity|]. intros s Hs. unfold vv, xr_. rewrite Hn. rewrite app_nth1; [reflexivity|].
      rewrite app_length. cbn. lia.
    - intros Hy. apply xltb_xlt in Hy. fold res in Hy. rewrite NRl. split; [unfold lwr; rewrite Hy; reflexivity|].
      exists (fun i => nth i inds 0%nat).
      split; [intros i Hi; apply (cat_nth k lwl n i Ll Hi)|].
      split; [intros i Hi; apply (cat_nth k lwl n i Ll Hi)|].
      intros s i Hs Hi. destruct (Nat.eqb_spec s T) as [->|Hne].
      + rewrite NR, Nx, Bool.orb_true_r. unfold xr_. rewrite Hy. apply take_nth. lia.
      + rewrite Bool.orb_false_r. rewrite <- app_assoc, !app_nth1 by lia. unfold vv. rewrite Hy.
        destruct full; [|reflexivity].
        rewrite (nth_map_in _ _ s []) by lia. apply take_nth. lia.
  Qed.

  (** every path is a chain of proposals *)
  Definition chained (n T : nat) (p : particles X Tm) (y : nat -> obs) (t : nat -> Tm) : Prop :=
    (forall i, (i < n)%nat -> exists k, at_ p 0 i = initial_sample F (y 0%nat) (t 0%nat) k)
    /\ forall s i, (S s < T)%nat -> (i < n)%nat ->
       successor (proposal_sample F) (t s) (y (S s)) (t (S s)) (at_ p s i) (at_ p (S s) i).

  Lemma propagate_chained n T p ys t1 k thr dt y1 :
    shaped n (S T) p -> length ys = S T ->
    chained n (S T) p (fun s => nth s ys []) (fun s => nth s (times p) dt) ->
    exists p', propagate_particle_filter dx categorical F p y1 t1 k thr true = Some p'
    /\ shaped n (S (S T)) p' /\ times p' = times p ++ [t1]
    /\ chained n (S (S T)) p' (fun s => nth s (ys ++ [y1]) []) (fun s => nth s (times p') dt).
  Proof.
    intros Hs Ly [Hi Hc].
    destruct (propagate_ok n T p y1 t1 k thr true dt Hs)
      as (p' & x1 & lw1 & e1 & E & S' & Et & _ & _ & _ & _ & _ & Lk & _ & Hno & Hyes).
    exists p'. split; [exact E|]. split; [exact S'|]. split; [exact Et|].
    assert (LT : length (times p) = S T) by apply Hs.
    assert (Hmap : exists f : nat -> nat, (forall i, (i < n)%nat -> (f i < n)%nat)
              /\ forall s i, (s <= T)%nat -> (i < n)%nat -> at_ p' s i = at_ p s (f i)).
    { destruct (xltb (nth T (ess p) NaN) (Fin (thr * INR n))) eqn:Eb.
      - destruct (Hyes (proj1 (xltb_xlt _ _) Eb)) as (_ & anc & A & _ & B). exists anc. split; [exact A|].
        intros s i H1 H2. exact (B s i H1 H2).
      - destruct (Hno (proj1 (xltb_nlt _ _) Eb)) as (_ & B). exists (fun i => i). split; [auto|].
        intros s i H1 H2. unfold at_. rewrite B by exact H1. reflexivity. }
    destruct Hmap as (f & Hf & Hmap).
    split.
    - intros i Hin. rewrite Et. rewrite !app_nth1 by lia. rewrite Hmap by lia. apply Hi, Hf, Hin.
    - intros s i H1 H2. rewrite Et. destruct (Nat.eq_dec s T) as [->|Hne].
      + exists (KSplit k n i). rewrite Lk by exact H2.
        rewrite (app_nth1 (times p)) by lia. rewrite !nth_last by assumption. reflexivity.
      + rewrite !app_nth1 by lia. rewrite !Hmap by lia. apply Hc; [lia|apply Hf, H2].
  Qed.

  Lemma propagate_all_chained n thr dt : forall steps T p ys,
    shaped n (S T) p -> length ys = S T ->
    chained n (S T) p (fun s => nth s ys []) (fun s => nth s (times p) dt) ->
    exists p', propagate_all dx categorical F p steps thr true = Some p'
    /\ shaped n (length steps + S T) p'
    /\ times p' = times p ++ map (fun x => snd (fst x)) steps
    /\ chained n (length steps + S T) p' (fun s => nth s (ys ++ map (fun x => fst (fst x)) steps) [])
               (fun s => nth s (times p') dt).
  Proof.
    induction steps as [|[[y t] k] r IH]; intros T p ys Hs Ly Hc.
    - exists p. cbn. rewrite !app_nil_r. auto.
    - cbn [propagate_all map fst snd].
      destruct (propagate_chained n T p ys t k thr dt y Hs Ly Hc) as (p1 & E & S1 & T1 & C1). rewrite E.
      destruct (IH (S T) p1 (ys ++ [y]) S1) as (p' & E' & S' & T' & C').
      + rewrite app_length. cbn. lia.
      + exact C1.
      + exists p'. split; [exact E'|]. rewrite T1, <- app_assoc in T'. rewrite <- app_assoc in C'.
        cbn [length]. replace (S (length r) + S T)%nat with (length r + S (S T))%nat by lia. auto.
  Qed.

  Lemma initiate_ok n k y t dt : 
    let p := initiate_particles F n k y t in
    shaped n 1 p /\ times p = [t] /\ chained n 1 p (fun s => nth s [y] []) (fun s => nth s (times p) dt)
    /\ (forall i, (i < n)%nat -> at_ p 0 i = initial_sample F y t (KSplit k n i)
                                /\ nth i (lw_at p 0) NaN = initial_log_weight F (at_ p 0 i) y t)
    /\ exists e, ess p = [e] /\ (lw_ok (lw_at p 0) -> e = Fin (kish (weights (lw_at p 0)))).
  Proof.
    intros p.
    assert (L : length (map (fun k => initial_sample F y t k) (split_keys k n 0 n)) = n)
      by (rewrite map_length; apply split_keys_length).
    assert (N : forall i, (i < n)%nat -> at_ p 0 i = initial_sample F y t (KSplit k n i)).
    { intros i Hi. unfold at_, p, initiate_particles. cbn [value nth].
      rewrite (nth_map_in _ _ i (KRoot 0)) by (rewrite split_keys_length; exact Hi).
      rewrite split_keys_nth by exact Hi. reflexivity. }
    split; [|split; [reflexivity|split; [split|split]]].
    - unfold shaped, p, initiate_particles. cbn. repeat split; repeat constructor; rewrite ?map_length; auto using split_keys_length.
    - intros i Hi. exists (KSplit k n i). apply N, Hi.
    - intros s i Hs. lia.
    - intros i Hi. split; [apply N, Hi|]. unfold lw_at, at_, p, initiate_particles. cbn [value log_weight nth].
      apply (nth_map_in (fun x => initial_log_weight F x y t) _ i dx NaN). rewrite L. exact Hi.
    - eexists. split; [reflexivity|]. apply ess_kish.
  Qed.
End P.
