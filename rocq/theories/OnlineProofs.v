(** Proofs for online smoothing. *)
From Coq Require Import Reals List Arith Bool Lia Lra.
From Verif Require Import XR Keys HmcModel WeightsModel WeightsSpec WeightsProofs McmcModel McmcSpec McmcProofs SmcModel SmcSpec
  FilterModel FilterSpec FilterProofs BackModel BackSpec BackProofs OnlineModel.
Import ListNotations.
Open Scope R_scope.

(** * Effective sample size of equal weights *)
Lemma Rsum_repeat a n : Rsum (repeat a n) = INR n * a.
Proof. induction n; [cbn; ring|]. cbn [repeat Rsum fold_right]. rewrite S_INR. unfold Rsum in *. cbn. rewrite IHn. ring. Qed.

Lemma map_repeat' {A B} (f : A -> B) a n : map f (repeat a n) = repeat (f a) n.
Proof. induction n; cbn; congruence. Qed.

Lemma zeros_ok n : (0 < n)%nat -> lw_ok (zeros n).
Proof.
  intros Hn. split.
  - apply Forall_forall. intros x Hx. apply repeat_spec in Hx. subst x. right. eexists; reflexivity.
  - destruct n; [lia|]. apply Exists_cons_hd. eexists; reflexivity.
Qed.

Lemma ess_zeros n : (0 < n)%nat -> ess_log_weight (zeros n) = Fin (INR n).
Proof.
  intros Hn. rewrite (ess_kish _ (zeros_ok n Hn)). f_equal. unfold kish, weights, zeros.
  rewrite map_repeat', map_repeat', !Rsum_repeat. cbn [weight]. rewrite exp_0.
  assert (INR n <> 0) by (apply not_0_INR; lia). field. exact H.
Qed.

Lemma zeros_length' n : length (zeros n) = n.
Proof. apply repeat_length. Qed.

(** * Rows *)
Lemma nth_skipn' {A} (l : list A) s i d : nth i (skipn s l) d = nth (s + i) l d.
Proof. revert l. induction s; intros [|a l]; cbn; auto; destruct i; reflexivity. Qed.
Lemma nth_firstn' {A} (l : list A) s i d : (i < s)%nat -> nth i (firstn s l) d = nth i l d.
Proof. revert l i. induction s; intros [|a l] [|i] H; cbn; auto; try lia. apply IHs. lia. Qed.

Lemma at_last_nth {A} (l : list A) T d : length l = S T -> at_last l = Some (nth T l d).
Proof.
  intros H. destruct (last_split l T H) as (l' & a & -> & L). rewrite at_last_app, nth_last by exact L. reflexivity.
Qed.

Definition rows {A} (n T : nat) (V : list (list A)) : Prop :=
  length V = T /\ forall s, (s < T)%nat -> length (nth s V []) = n.

Lemma rows_Forall {A} n T (V : list (list A)) : length V = T -> Forall (fun r => length r = n) V -> rows n T V.
Proof.
  intros L H. split; [exact L|]. intros s Hs. rewrite Forall_forall in H. apply H, nth_In. lia.
Qed.
Lemma rows_skipn {A} n T s (V : list (list A)) : rows n T V -> rows n (T - s) (skipn s V).
Proof.
  intros [L H]. split; [rewrite skipn_length; lia|]. intros i Hi. rewrite nth_skipn'. apply H. lia.
Qed.
Lemma rows_firstn {A} n T s (V : list (list A)) : rows n T V -> (s <= T)%nat -> rows n s (firstn s V).
Proof.
  intros [L H] Hs. split; [rewrite firstn_length; lia|]. intros i Hi. rewrite nth_firstn' by exact Hi. apply H. lia.
Qed.

Section Online.
  Context {X Tm : Type}.
  Variable dx : X.
  Variable dt : Tm.
  Variable pot : X -> Tm -> X -> Tm -> xr.
  Variable categorical : key -> list xr -> nat -> list nat.
  Variable categorical1 : key -> list xr -> nat.
  Variable uniform : key -> R.
  Variable uniform_n : key -> nat -> list R.
  Hypothesis Hcat : categorical_n_ok categorical.
  Hypothesis Hcat1 : categorical1_ok categorical1.
  Hypothesis Hun : forall k n, length (uniform_n k n) = n.

  Notation stitching := (fixed_lag_stitching dx pot categorical categorical1 uniform uniform_n).

  Lemma cat_n_range k lw n : (0 < length lw)%nat ->
    length (categorical k lw n) = n /\ Forall (fun i => (i < length lw)%nat) (categorical k lw n).
  Proof.
    intros H. destruct (Hcat k lw n) as (A & B & _); [intros ->; cbn in H; lia|]. split; assumption.
  Qed.
  Lemma cat1_range k lw : (0 < length lw)%nat -> (categorical1 k lw < length lw)%nat.
  Proof. intros H. apply Hcat1. intros ->. cbn in H. lia. Qed.

  Lemma full_stitch_length x0 t x1 t1 lw k : length (full_stitch pot categorical1 x0 t x1 t1 lw k) = length x0.
  Proof. unfold full_stitch. rewrite map_length, combine_length, split_keys_length. lia. Qed.

  Lemma full_stitch_nth x0 t x1 t1 lw k j : (j < length x0)%nat ->
    nth j (full_stitch pot categorical1 x0 t x1 t1 lw k) 0%nat
    = full_stitch_single pot categorical1 (nth j x0 dx) t x1 t1 lw (KSplit k (length x0) j).
  Proof.
    intros Hj. unfold full_stitch.
    rewrite (nth_map_in _ _ j (dx, KRoot 0)) by (rewrite combine_length, split_keys_length; lia).
    rewrite combine_nth by (rewrite split_keys_length; reflexivity). cbn [fst snd].
    rewrite split_keys_nth by exact Hj. reflexivity.
  Qed.

  Lemma non_interacting_length x0 t x1 t1 lw n : length x0 = n -> length x1 = n -> length lw = n ->
    length (non_interacting pot x0 t x1 t1 lw) = n.
  Proof. intros. unfold non_interacting. rewrite map_length, !combine_length. lia. Qed.

  Lemma non_interacting_nth x0 t x1 t1 lw n i : length x0 = n -> length x1 = n -> length lw = n -> (i < n)%nat ->
    nth i (non_interacting pot x0 t x1 t1 lw) NaN = xadd (nth i lw NaN) (pot (nth i x0 dx) t (nth i x1 dx) t1).
  Proof.
    intros L0 L1 Ll Hi. unfold non_interacting.
    rewrite (nth_map_in _ _ i (NaN, (dx, dx))) by (rewrite !combine_length; lia).
    rewrite !combine_nth by (rewrite ?combine_length; lia). reflexivity.
  Qed.

  (** shape of stitching: [recent] has at least one row *)
  Lemma stitching_ok n s L early t recent lw t1 k maxrej ib infl : (0 < n)%nat ->
    rows n (S s) early -> rows n (S L) recent -> length lw = n ->
    exists inds ev, stitching early t recent lw t1 k maxrej ib infl
      = Some (early ++ map (fun row => take dx row inds) (tl recent), ev)
    /\ length inds = n /\ (forall j, (j < n)%nat -> (nth j inds 0 < n)%nat)
    /\ (ev <= n * Nat.max 1 maxrej + n * n)%nat
    /\ (maxrej = 0%nat -> forall j, (j < n)%nat ->
         nth j inds 0%nat = full_stitch_single pot categorical1 (nth j (nth s early []) dx) t (nth_clamp 1 recent [])
           t1 (non_interacting pot (nth 0 recent []) t (nth_clamp 1 recent []) t1 lw) (KSplit k n j)).
  Proof.
    intros Hn [LE HE] [LR HR] Ll. unfold fixed_lag_stitching.
    rewrite (at_last_nth early s [] LE).
    destruct recent as [|x0 rest]; [discriminate|].
    assert (Lx0 : length x0 = n) by (apply (HR 0%nat); lia).
    assert (Lx1 : length (nth_clamp 1 (x0 :: rest) []) = n).
    { unfold nth_clamp. apply HR. rewrite LR. lia. }
    set (x1 := nth_clamp 1 (x0 :: rest) []) in *.
    assert (LF : length (nth s early []) = n) by (apply HE; lia).
    set (xf := nth s early []) in *.
    set (nlw := non_interacting pot x0 t x1 t1 lw).
    assert (Lw : length nlw = n) by (apply non_interacting_length; assumption).
    assert (Hsingle : forall x k, (full_stitch_single pot categorical1 x t x1 t1 nlw k < n)%nat).
    { intros x k'. unfold full_stitch_single. set (l := map _ _).
      assert (Ls : length l = n) by (unfold l; rewrite map_length, combine_length; lia).
      rewrite <- Ls. apply cat1_range. lia. }
    destruct (Nat.ltb_spec 0 maxrej) as [Hm|Hm].
    - destruct (cat_n_range (KSplit k 3 0) nlw (length x1) ltac:(lia)) as [C1 C2]. rewrite Lw in C2.
      destruct (rejection_support 0%nat (fun k => categorical1 k nlw) (fun k n => categorical k nlw n)
         (fun i a => xexp (xopp (pot (nth i xf dx) t (nth a x1 dx) t1)))
         (fun i k => full_stitch_single pot categorical1 (nth i xf dx) t x1 t1 nlw k) uniform uniform_n infl
         (fun a => (a < n)%nat) ltac:(intros k'; rewrite <- Lw; apply cat1_range; lia)
         (length x1) (length x1) k maxrej ib) as (A1 & A2 & A3).
      { intros i k' _. apply Hsingle. } { exact C1. } { exact C2. } { apply Hun. }
      unfold rejection_stitching. eexists _, _. split; [reflexivity|]. rewrite Lx1 in *.
      split; [exact A1|]. split; [exact A2|]. split; [exact A3|]. intros ->. lia.
    - eexists _, _. split; [reflexivity|]. cbn [fst snd]. rewrite full_stitch_length, LF. split; [reflexivity|].
      split; [|split].
      + intros j Hj. rewrite full_stitch_nth by lia. apply Hsingle.
      + nia.
      + intros _ j Hj. rewrite full_stitch_nth by lia. rewrite LF. reflexivity.
  Qed.

  (** shape of backward simulation, whatever the weights *)
  Lemma back_scan_shape (body : nat -> list X -> list X * nat) n : forall inds x1,
    length x1 = n -> (forall i x1, In i inds -> length x1 = n -> length (fst (body i x1)) = n) ->
    length (back_scan body inds x1) = length inds
    /\ Forall (fun o => length (fst o) = n) (back_scan body inds x1).
  Proof.
    induction inds as [|i inds IH]; intros x1 L1 Hb; cbn; [split; [reflexivity|constructor]|].
    assert (L' := Hb i x1 (or_introl eq_refl) L1).
    destruct (IH (fst (body i x1)) L') as [A B]; [intros; apply Hb; [right|]; assumption|].
    split; [congruence|]. constructor; [exact L'|exact B].
  Qed.

  Lemma backward_shape n m T V W ts k maxrej ib infl : (0 < n)%nat ->
    rows n (S T) V -> rows n (S T) W ->
    exists out evs,
      backward_simulation dx pot categorical categorical1 uniform uniform_n dt V W ts k (Some m) maxrej ib infl
        = Some (out, evs)
    /\ rows m (S T) out.
  Proof.
    intros Hn [LV HV] [LW HW].
    assert (G : forall body, (forall i x1, (i < T)%nat -> length x1 = m ->
                  length (fst (body V W ts (KSplit k (S T) i) i x1)) = m) ->
      exists out evs, back_sim dx categorical body V W ts m k = Some (out, evs) /\ rows m (S T) out).
    { intros body Hb. unfold back_sim. rewrite LV.
      set (xT := take dx _ _).
      assert (Lx : length xT = m).
      { unfold xT. rewrite take_length. apply cat_n_range. rewrite HW by lia. exact Hn. }
      destruct (back_scan_shape (fun ind => body V W ts (KSplit k (S T) ind) ind) m (rev (seq 0 T)) xT Lx) as [A B].
      { intros i x1 Hi. apply Hb. rewrite <- in_rev, in_seq in Hi. lia. }
      eexists _, _. split; [reflexivity|]. rewrite rev_length, seq_length in A.
      split; [rewrite app_length, rev_length, map_length; cbn; lia|].
      intros s Hs. set (outs := back_scan _ _ xT) in *.
      assert (Fr : Forall (fun r => length r = m) (rev (map fst outs) ++ [xT])).
      { apply Forall_app. split; [|constructor; [exact Lx|constructor]].
        apply Forall_forall. intros r Hr. rewrite <- in_rev in Hr. apply in_map_iff in Hr. destruct Hr as (o & <- & Ho).
        rewrite Forall_forall in B. apply B, Ho. }
      rewrite Forall_forall in Fr. apply Fr, nth_In. rewrite app_length, rev_length, map_length. cbn. lia. }
    unfold backward_simulation. destruct (Nat.ltb 0 maxrej); apply G; intros i x1 Hi L1.
    - unfold body_rejection, rejection_resampling.
      destruct (rejection_support dx (fun k => nth (categorical1 k (nth i W [])) (nth i V []) dx)
         (fun k n => take dx (nth i V []) (categorical k (nth i W []) n))
         (fun i0 a => xexp (xopp (pot a (nth i ts dt) (nth i0 x1 dx) (nth (S i) ts dt))))
         (fun i0 k => full_resample_single dx pot categorical1 (nth i V []) (nth i ts dt) (nth i0 x1 dx) (nth (S i) ts dt) (nth i W []) k)
         uniform uniform_n infl (fun _ => True) (fun _ => I) (length x1) (length (nth i V []))
         (KSplit k (S T) i) maxrej ib) as (A1 & _).
      { intros; exact I. }
      { rewrite take_length. apply cat_n_range. rewrite HW by lia. exact Hn. }
      { apply Forall_forall. intros; exact I. } { apply Hun. }
      rewrite A1. exact L1.
    - unfold body_full, full_resampling. cbn [fst]. rewrite map_length, combine_length, split_keys_length. lia.
  Qed.

  Variable F : pfilter X Tm.

  (** * With backward simulation *)
  Definition bshape (n T : nat) (p : bsmoothed (X := X) (Tm := Tm)) : Prop :=
    rows n T (b_value p) /\ length (b_times p) = T /\ shaped n T (b_filter p).

  Notation step_bs := (smoother_bs dx dt pot categorical categorical1 uniform uniform_n F).

  Hypothesis Hcatf : categorical_ok categorical.

  Lemma propose_length x t0 y t1 ks : length (propose F x t0 y t1 ks) = Nat.min (length x) (length ks).
  Proof. unfold propose. rewrite map_length, combine_length. reflexivity. Qed.

  Lemma smoother_bs_ok n T p y t1 k lag thr maxrej ib infl : (0 < n)%nat -> (0 < lag)%nat -> bshape n (S T) p ->
    exists p', step_bs p y t1 k lag thr maxrej ib infl = Some p'
    /\ bshape n (S (S T)) p' /\ b_times p' = b_times p ++ [t1] /\ b_obs p' = b_obs p ++ [y] /\ b_lw p' = zeros n
    /\ propagate_particle_filter dx categorical F (b_filter p) y t1 (KSplit k 4 1) thr false = Some (b_filter p')
    /\ exists sim evs, 
       (let s := (S (S T) - lag - 1)%nat in
        backward_simulation dx pot categorical categorical1 uniform uniform_n dt
          (skipn s (value (b_filter p'))) (skipn s (log_weight (b_filter p'))) (skipn s (times (b_filter p')))
          (KSplit k 4 2) (Some n) maxrej ib infl = Some (sim, evs))
       /\ ((S T < lag)%nat -> b_value p' = sim)
       /\ ((lag <= S T)%nat -> rows n (S lag) sim
           /\ exists inds, length inds = n /\ (forall j, (j < n)%nat -> (nth j inds 0 < n)%nat)
              /\ b_value p' = firstn (S T - lag + 1) (b_value p) ++ map (fun row => take dx row inds) (tl sim)).
  Proof.
    intros Hn Hlag (HV & Ht & Hf).
    destruct (propagate_ok dx categorical Hcatf F n T (b_filter p) y t1 (KSplit k 4 1) thr false dt Hf)
      as (mf & x1 & lw1 & e1 & E & Sh & Et & _ & _ & Ee & _ & _).
    unfold smoother_bs. rewrite E. rewrite (at_last_nth (b_value p) T []) by apply HV.
    assert (Ln : length (nth T (b_value p) []) = n) by (apply HV; lia). rewrite Ln.
    rewrite app_length, Ht. cbn [length].
    rewrite Ee, at_last_app.
    destruct Sh as (LV & FV & LW & FW & LT & LE).
    assert (RV := rows_Forall n _ _ LV FV). assert (RW := rows_Forall n _ _ LW FW).
    destruct (Nat.leb_spec (lag + 1) (S T + 1)) as [Hle|Hgt].
    - set (s := (S T + 1 - lag - 1)%nat).
      assert (Rs := rows_skipn n _ s _ RV). assert (Rw := rows_skipn n _ s _ RW).
      replace (S (S T) - s)%nat with (S lag) in Rs, Rw by (unfold s; lia).
      destruct (backward_shape n n lag (skipn s (value mf)) (skipn s (log_weight mf)) (skipn s (times mf))
        (KSplit k 4 2) maxrej ib infl Hn Rs Rw) as (sim & evs & Eb & Rsim).
      rewrite Eb.
      assert (Re : rows n (S s) (firstn (s + 1) (b_value p))).
      { replace (S s) with (s + 1)%nat by lia. eapply rows_firstn; [exact HV|unfold s; lia]. }
      destruct (stitching_ok n s lag (firstn (s + 1) (b_value p)) (nth s (b_times p ++ [t1]) dt) sim (zeros n)
        (nth_clamp (S T + 1 - lag) (b_times p ++ [t1]) dt) k maxrej ib infl Hn Re Rsim (zeros_length' n))
        as (inds & ev & Es & Li & Hi & _). rewrite Es.
      eexists. split; [reflexivity|]. cbn [b_value b_times b_obs b_lw b_filter].
      assert (Lr : length (firstn (s + 1) (b_value p)) = (s + 1)%nat) by (destruct Re; lia).
      split; [|split; [reflexivity|split; [reflexivity|split; [reflexivity|split; [reflexivity|]]]]].
      + split; [|split; [cbn [b_times]; rewrite app_length; cbn; lia|cbn [b_filter]; exact (conj LV (conj FV (conj LW (conj FW (conj LT LE)))))]].
        cbn [b_value]. destruct Rsim as [Ls Hs]. split.
        * rewrite app_length, map_length, Lr. destruct sim; [discriminate|]. cbn in Ls. cbn [tl]. unfold s. lia.
        * intros r Hr. destruct (Nat.lt_ge_cases r (s + 1)) as [H1|H1].
          { rewrite app_nth1 by lia. apply Re. lia. }
          { rewrite app_nth2 by lia. rewrite Lr. destruct sim as [|s0 sim]; [discriminate|]. cbn [tl] in *. cbn in Ls.
            rewrite (nth_map_in _ _ _ []) by (unfold s in *; lia). rewrite take_length. exact Li. }
      + exists sim, evs. split; [replace (S (S T) - lag - 1)%nat with s by (unfold s; lia); exact Eb|].
        split; [intros; lia|]. intros _. split; [exact Rsim|]. exists inds. split; [exact Li|]. split; [exact Hi|].
        replace (S T - lag + 1)%nat with (s + 1)%nat by (unfold s; lia). reflexivity.
    - destruct (backward_shape n n (S T) (value mf) (log_weight mf) (times mf)
        (KSplit k 4 2) maxrej ib infl Hn RV RW) as (sim & evs & Eb & Rsim).
      rewrite Eb. eexists. split; [reflexivity|]. cbn [b_value b_times b_obs b_lw b_filter].
      split; [|split; [reflexivity|split; [reflexivity|split; [reflexivity|split; [reflexivity|]]]]].
      + split; [exact Rsim|]. split; [cbn [b_times]; rewrite app_length; cbn; lia|]. exact (conj LV (conj FV (conj LW (conj FW (conj LT LE))))).
      + exists sim, evs. replace (S (S T) - lag - 1)%nat with 0%nat by lia. cbn [skipn].
        split; [exact Eb|]. split; [reflexivity|]. intros; lia.
  Qed.

  Lemma smoother_bs_frozen n T p y t1 k lag thr maxrej ib infl p' : (0 < n)%nat -> (0 < lag)%nat -> bshape n (S T) p ->
    step_bs p y t1 k lag thr maxrej ib infl = Some p' ->
    forall r, (r + lag <= S T)%nat -> nth r (b_value p') [] = nth r (b_value p) [].
  Proof.
    intros Hn Hlag Sh E r Hr. destruct (smoother_bs_ok n T p y t1 k lag thr maxrej ib infl Hn Hlag Sh)
      as (p'' & E' & _ & _ & _ & _ & _ & sim & evs & _ & _ & H). rewrite E in E'. injection E' as <-.
    destruct (H ltac:(lia)) as (_ & inds & _ & _ & ->).
    assert (LV : length (b_value p) = S T) by apply Sh.
    rewrite app_nth1 by (rewrite firstn_length; lia). apply nth_firstn'. lia.
  Qed.

  Lemma run_bs_ok n lag thr maxrej ib infl : (0 < n)%nat -> (0 < lag)%nat -> forall steps T p, bshape n (S T) p ->
    exists p', run_bs dx dt pot categorical categorical1 uniform uniform_n F p steps lag thr maxrej ib infl = Some p'
    /\ bshape n (length steps + S T) p'
    /\ b_times p' = b_times p ++ map (fun x => snd (fst x)) steps
    /\ b_obs p' = b_obs p ++ map (fun x => fst (fst x)) steps
    /\ forall r, (r + lag <= S T)%nat -> nth r (b_value p') [] = nth r (b_value p) [].
  Proof.
    intros Hn Hlag. induction steps as [|[[y t] k] steps IH]; intros T p Sh.
    - exists p. cbn. rewrite !app_nil_r. repeat split; auto; apply Sh.
    - cbn [run_bs map fst snd].
      destruct (smoother_bs_ok n T p y t k lag thr maxrej ib infl Hn Hlag Sh) as (p1 & E1 & S1 & T1 & O1 & _).
      rewrite E1. assert (Fz := smoother_bs_frozen n T p y t k lag thr maxrej ib infl p1 Hn Hlag Sh E1).
      destruct (IH (S T) p1 S1) as (p' & E' & S' & T' & O' & F').
      exists p'. split; [exact E'|].
      cbn [length]. replace (S (length steps) + S T)%nat with (length steps + S (S T))%nat by lia.
      split; [exact S'|]. rewrite T', T1, O', O1, <- !app_assoc. split; [reflexivity|]. split; [reflexivity|].
      intros r Hr. rewrite F' by lia. apply Fz, Hr.
  Qed.

  (** * Without *)
  Definition pshape (n T : nat) (p : smoothed (X := X) (Tm := Tm)) : Prop :=
    rows n T (s_value p) /\ length (s_times p) = T /\ length (s_lw p) = n.
  Notation step_pf := (smoother_pf dx dt pot categorical categorical1 uniform uniform_n F).

  Lemma increments_length x t0 x' y t1 : length (increments F x t0 x' y t1) = Nat.min (length x) (length x').
  Proof. unfold increments. rewrite map_length, combine_length. reflexivity. Qed.

  (** the particles after resampling and proposing *)
  Definition extended (n T : nat) (V : list (list X)) (ts : list Tm) (anc : nat -> nat) (y : obs) (t1 : Tm) (k : key)
    (V1 : list (list X)) : Prop :=
    rows n (S (S T)) V1
    /\ (forall r j, (r <= T)%nat -> (j < n)%nat -> nth j (nth r V1 []) dx = nth (anc j) (nth r V []) dx)
    /\ forall j, (j < n)%nat -> nth j (nth (S T) V1 []) dx
         = proposal_sample F (nth (anc j) (nth T V []) dx) (nth T ts dt) y t1 (KSplit k n j).

  Lemma smoother_pf_ok n T p y t1 k lag maxrej ib infl : (0 < n)%nat -> (0 < lag)%nat -> pshape n (S T) p ->
    exists p', step_pf p y t1 k lag maxrej ib infl = Some p'
    /\ pshape n (S (S T)) p' /\ s_times p' = s_times p ++ [t1] /\ s_obs p' = s_obs p ++ [y]
    /\ exists anc V1, (forall j, (j < n)%nat -> (anc j < n)%nat)
       /\ (s_lw p = zeros n -> forall j, anc j = j)
       /\ extended n T (s_value p) (s_times p) anc y t1 k V1
       /\ ((S T < lag)%nat -> s_value p' = V1)
       /\ ((lag <= S T)%nat -> s_lw p' = zeros n
           /\ exists inds, length inds = n /\ (forall j, (j < n)%nat -> (nth j inds 0 < n)%nat)
              /\ s_value p' = firstn (S T - lag + 1) V1 ++ map (fun row => take dx row inds) (skipn (S T - lag + 1) V1)).
  Proof.
    intros Hn Hlag (HV & Ht & Hl). unfold smoother_pf.
    rewrite (at_last_nth (s_value p) T []) by apply HV. rewrite (at_last_nth (s_times p) T dt) by exact Ht.
    assert (Ln : length (nth T (s_value p) []) = n) by (apply HV; lia). rewrite Ln.
    set (inds0 := categorical k (s_lw p) n). set (res := xltb _ _).
    destruct (cat_n_range k (s_lw p) n ltac:(lia)) as [C1 C2]. fold inds0 in C1, C2. rewrite Hl in C2.
    set (anc := fun j => if res then nth j inds0 0%nat else j).
    set (V := if res then map (fun row => take dx row inds0) (s_value p) else s_value p).
    assert (RV : rows n (S T) V).
    { unfold V. destruct res; [|exact HV]. destruct HV as [L H]. split; [rewrite map_length; exact L|].
      intros s Hs. rewrite (nth_map_in _ _ s []) by lia. rewrite take_length. exact C1. }
    assert (NV : forall r j, (r <= T)%nat -> (j < n)%nat -> nth j (nth r V []) dx = nth (anc j) (nth r (s_value p) []) dx).
    { intros r j Hr Hj. unfold V, anc. destruct res; [|reflexivity]. destruct HV as [L H].
      rewrite (nth_map_in _ _ r []) by lia. apply take_nth. lia. }
    assert (Elast : last V [] = nth T V []).
    { destruct RV as [L _]. destruct (last_split V T L) as (V' & a & EV & LV'). rewrite EV, last_last.
      symmetry. apply nth_last. exact LV'. }
    rewrite Elast. set (x0 := nth T V []). assert (Lx0 : length x0 = n) by (apply RV; lia). rewrite Lx0.
    set (t0 := nth T (s_times p) dt).
    set (x1 := propose F x0 t0 y t1 (split_keys k n 0 n)).
    assert (Lx1 : length x1 = n) by (unfold x1; rewrite propose_length, split_keys_length; lia).
    set (lw1 := increments F x0 t0 x1 y t1).
    assert (Ll1 : length lw1 = n) by (unfold lw1; rewrite increments_length; lia).
    assert (LV : length V = S T) by apply RV.
    assert (RV1 : rows n (S (S T)) (V ++ [x1])).
    { split; [rewrite app_length; cbn; lia|]. intros r Hr. destruct (Nat.lt_ge_cases r (S T)) as [H1|H1].
      - rewrite app_nth1 by lia. apply RV. lia.
      - replace r with (S T) by lia. rewrite nth_last by exact LV. exact Lx1. }
    assert (Ext : extended n T (s_value p) (s_times p) anc y t1 k (V ++ [x1])).
    { split; [exact RV1|]. split.
      - intros r j Hr Hj. rewrite app_nth1 by lia. apply NV; assumption.
      - intros j Hj. rewrite nth_last by exact LV. unfold x1.
        rewrite (propose_nth dx F _ _ _ _ _ j (KRoot 0)) by (rewrite ?split_keys_length; lia).
        rewrite split_keys_nth by exact Hj. fold t0. f_equal. unfold x0. apply NV; [lia|exact Hj]. }
    assert (Hanc : forall j, (j < n)%nat -> (anc j < n)%nat).
    { intros j Hj. unfold anc. destruct res; [|exact Hj]. rewrite Forall_forall in C2. apply C2, nth_In. lia. }
    assert (Hz : s_lw p = zeros n -> forall j, anc j = j).
    { intros Ez j. unfold anc, res. rewrite Ez, (ess_zeros n Hn). cbn [xltb].
      destruct (Rltb (INR n) (INR n - / 1000)) eqn:Er; [|reflexivity]. apply Rltb_true in Er. lra. }
    rewrite app_length, Ht. cbn [length].
    destruct (Nat.leb_spec (lag + 1) (S T + 1)) as [Hle|Hgt].
    - set (s := (S T + 1 - lag - 1)%nat).
      assert (Re : rows n (S s) (firstn (s + 1) (V ++ [x1]))).
      { replace (S s) with (s + 1)%nat by lia. eapply rows_firstn; [exact RV1|unfold s; lia]. }
      assert (Rr := rows_skipn n _ s _ RV1). replace (S (S T) - s)%nat with (S lag) in Rr by (unfold s; lia).
      destruct (stitching_ok n s lag (firstn (s + 1) (V ++ [x1])) (nth s (s_times p ++ [t1]) dt) (skipn s (V ++ [x1])) lw1
        (nth_clamp (S T + 1 - lag) (s_times p ++ [t1]) dt) k maxrej ib infl Hn Re Rr Ll1)
        as (inds & ev & Es & Li & Hi & _). rewrite Es.
      assert (Etl : tl (skipn s (V ++ [x1])) = skipn (s + 1) (V ++ [x1])).
      { clear. generalize (V ++ [x1]) as l. induction s; intros [|a l]; cbn; auto; destruct s; reflexivity. }
      rewrite Etl in *.
      eexists. split; [reflexivity|]. cbn [s_value s_times s_obs s_lw].
      assert (Lr : length (firstn (s + 1) (V ++ [x1])) = (s + 1)%nat) by (destruct Re; lia).
      split; [|split; [reflexivity|split; [reflexivity|]]].
      + split; [|split; [cbn [s_times]; rewrite app_length; cbn; lia|cbn [s_lw]; apply zeros_length']].
        cbn [s_value]. assert (Lsk : length (skipn (s + 1) (V ++ [x1])) = lag).
        { rewrite skipn_length, app_length, LV. cbn [length]. unfold s. lia. }
        split.
        * rewrite app_length, map_length, Lr, Lsk. unfold s. lia.
        * intros r Hr. destruct (Nat.lt_ge_cases r (s + 1)) as [H1|H1].
          { rewrite app_nth1 by lia. apply Re. lia. }
          { rewrite app_nth2 by lia. rewrite Lr.
            rewrite (nth_map_in _ _ _ []) by (unfold s in *; lia). rewrite take_length. exact Li. }
      + exists anc, (V ++ [x1]). split; [exact Hanc|]. split; [exact Hz|]. split; [exact Ext|].
        split; [intros; lia|]. intros _. split; [reflexivity|]. exists inds. split; [exact Li|]. split; [exact Hi|].
        replace (S T - lag + 1)%nat with (s + 1)%nat by (unfold s; lia). reflexivity.
    - eexists. split; [reflexivity|]. cbn [s_value s_times s_obs s_lw].
      split; [|split; [reflexivity|split; [reflexivity|]]].
      + split; [exact RV1|]. split; [cbn [s_times]; rewrite app_length; cbn; lia|exact Ll1].
      + exists anc, (V ++ [x1]). split; [exact Hanc|]. split; [exact Hz|]. split; [exact Ext|].
        split; [reflexivity|intros; lia].
  Qed.

  Lemma smoother_pf_frozen n T p y t1 k lag maxrej ib infl p' : (0 < n)%nat -> (0 < lag)%nat -> pshape n (S T) p ->
    s_lw p = zeros n -> step_pf p y t1 k lag maxrej ib infl = Some p' ->
    forall r, (r + lag <= S T)%nat -> nth r (s_value p') [] = nth r (s_value p) [].
  Proof.
    intros Hn Hlag Sh Hz E r Hr. destruct (smoother_pf_ok n T p y t1 k lag maxrej ib infl Hn Hlag Sh)
      as (p'' & E' & _ & _ & _ & anc & V1 & _ & Ha & (R1 & Ext & _) & _ & H). rewrite E in E'. injection E' as <-.
    destruct (H ltac:(lia)) as (_ & inds & _ & _ & ->). destruct Sh as ((LV & HV) & _). destruct R1 as [L1 H1].
    rewrite app_nth1 by (rewrite firstn_length; lia). rewrite nth_firstn' by lia.
    apply (nth_ext _ _ dx dx); [rewrite H1, HV by lia; reflexivity|].
    intros j Hj. rewrite H1 in Hj by lia. rewrite Ext by lia. rewrite (Ha Hz). reflexivity.
  Qed.

  Lemma run_pf_ok n lag maxrej ib infl : (0 < n)%nat -> (0 < lag)%nat -> forall steps T p, pshape n (S T) p ->
    ((lag <= T)%nat -> s_lw p = zeros n) ->
    exists p', run_pf dx dt pot categorical categorical1 uniform uniform_n F p steps lag maxrej ib infl = Some p'
    /\ pshape n (length steps + S T) p'
    /\ ((lag <= length steps + T)%nat -> s_lw p' = zeros n)
    /\ s_times p' = s_times p ++ map (fun x => snd (fst x)) steps
    /\ s_obs p' = s_obs p ++ map (fun x => fst (fst x)) steps
    /\ forall r, (r + lag <= T)%nat -> nth r (s_value p') [] = nth r (s_value p) [].
  Proof.
    intros Hn Hlag. induction steps as [|[[y t] k] steps IH]; intros T p Sh Hz.
    - exists p. cbn. rewrite !app_nil_r. repeat split; auto; apply Sh.
    - cbn [run_pf map fst snd].
      destruct (smoother_pf_ok n T p y t k lag maxrej ib infl Hn Hlag Sh)
        as (p1 & E1 & S1 & T1 & O1 & anc & V1 & _ & _ & _ & _ & Hst).
      rewrite E1.
      destruct (IH (S T) p1 S1) as (p' & E' & S' & Z' & T' & O' & F').
      { intros Hl. apply Hst. exact Hl. }
      exists p'. split; [exact E'|].
      cbn [length]. replace (S (length steps) + S T)%nat with (length steps + S (S T))%nat by lia.
      split; [exact S'|]. split; [intros Hl; apply Z'; lia|].
      rewrite T', T1, O', O1, <- !app_assoc. split; [reflexivity|]. split; [reflexivity|].
      intros r Hr. rewrite F' by lia.
      apply (smoother_pf_frozen n T p y t k lag maxrej ib infl p1 Hn Hlag Sh (Hz ltac:(lia)) E1). lia.
  Qed.
End Online.
