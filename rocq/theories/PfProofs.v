(** Proofs that the evidence computed from a particle filter's weights is
    unbiased. *)
From Coq Require Import Reals List Bool Arith Lia Lra.
From Verif Require Import XR Keys HmcModel WeightsModel WeightsSpec WeightsProofs SmcSpec SmcNorm SmcProps UnbSpec UnbProofs
  FilterModel FilterProofs PfSpec.
Import ListNotations.
Open Scope R_scope.

Notation dot ws xs := (Rsum (map (fun wx => fst wx * snd wx) (combine ws xs))).

Lemma expect_dot2 {A B} (D : B -> law A) (h : B -> A -> R) (bs : list B) : forall ws,
  List.Forall (fun b => prob (D b)) bs ->
  expect (map D bs) (fun ys => dot ws (map (fun by_ => h (fst by_) (snd by_)) (combine bs ys)))
  = dot ws (map (fun b => mean (D b) (h b)) bs).
Proof.
  induction bs as [|b bs IH]; intros ws P; [destruct ws; reflexivity|].
  inversion P as [|? ? Pb Ps]; subst.
  assert (Pr : List.Forall prob (map D bs)).
  { apply Forall_forall. intros d Hd. apply in_map_iff in Hd. destruct Hd as (c & <- & Hc).
    rewrite Forall_forall in Ps. apply Ps, Hc. }
  destruct ws as [|w ws]; cbn [map expect combine Rsum].
  - rewrite (mean_ext _ _ (fun _ => 0)); [apply mean_const; exact Pb|]. intros a _. apply expect_const. exact Pr.
  - rewrite <- (IH ws Ps). cbn [fst snd].
    rewrite (mean_ext _ _ (fun a => expect (map D bs) (fun ys => dot ws (map (fun by_ => h (fst by_) (snd by_)) (combine bs ys))) + w * h b a)).
    + rewrite mean_affine by exact Pb. lra.
    + intros a _.
      transitivity (w * h b a + 1 * expect (map D bs) (fun ys => dot ws (map (fun by_ => h (fst by_) (snd by_)) (combine bs ys)))); [|lra].
      rewrite <- expect_affine by exact Pr. apply expect_ext. intros ys _. lra.
Qed.

Lemma finite_map_weights (a : list R) : weights (map Fin a) = map exp a.
Proof. unfold weights. rewrite map_map. reflexivity. Qed.

Section P.
  Context {X Tm : Type}.
  Variable dx : X.
  Variable supp : list X.
  Variable mu : X -> R.
  Variable q : X -> Tm -> obs -> Tm -> X -> R.
  Variable F : pfilter X Tm.
  Variable thr : R.
  Variable n : nat.
  Variable w0 : X -> obs -> Tm -> R.
  Variable w : X -> Tm -> X -> obs -> Tm -> R.
  Hypothesis Hw0 : forall x y t, In x supp -> initial_log_weight F x y t = Fin (w0 x y t).
  Hypothesis Hw : forall x t0 x' y t, In x supp -> In x' supp -> intermediate_log_weight F x t0 x' y t = Fin (w x t0 x' y t).
  Hypothesis Hmu : Rsum (map mu supp) = 1.
  Hypothesis Hq : forall x t0 y t, In x supp -> Rsum (map (q x t0 y t) supp) = 1.
  Hypothesis Hn : (0 < n)%nat.
  Notation resamples := (resamples thr n).

  Definition fine_m (s : marginal X Tm) : Prop :=
    length (m_value s) = n /\ (forall x, In x (m_value s) -> In x supp)
    /\ exists a, length a = n /\ m_lw s = map Fin a.

  Definition used (s : marginal X Tm) : list R := if resamples s then repeat 1 n else weights (m_lw s).

  Lemma n_pos : 0 < INR n. Proof. apply lt_0_INR, Hn. Qed.

  Lemma map_exp_pos (a : list R) : length a = n -> 0 < Rsum (map exp a).
  Proof. intros L. apply Rsum_pos; [destruct a; [cbn in L; lia|discriminate]|]. intros. apply exp_pos. Qed.

  Lemma Rsum_ones m : Rsum (repeat 1 m) = INR m.
  Proof. induction m as [|m IH]; [reflexivity|]. cbn [repeat Rsum]. rewrite IH, S_INR. lra. Qed.

  Lemma used_sum s : fine_m s -> length (used s) = n
    /\ Rsum (used s) = (if resamples s then INR n else Rsum (weights (m_lw s))) /\ 0 < Rsum (used s).
  Proof.
    intros (_ & _ & a & La & Ea). unfold used. destruct (resamples s).
    - rewrite repeat_length, Rsum_ones. split; [reflexivity|]. split; [reflexivity|apply n_pos].
    - rewrite Ea, finite_map_weights, map_length. split; [exact La|]. split; [reflexivity|]. apply map_exp_pos, La.
  Qed.

  Lemma add_fin (a b : list R) : add_weights (map Fin a) (map Fin b) = map Fin (map (fun ab => fst ab + snd ab) (combine a b)).
  Proof. unfold add_weights. revert b. induction a as [|x a IH]; intros [|y b]; cbn; try reflexivity. rewrite IH. reflexivity. Qed.

  Lemma exp_add (a b : list R) : map exp (map (fun ab => fst ab + snd ab) (combine a b)) = map (fun wx => fst wx * snd wx) (combine (map exp a) (map exp b)).
  Proof. revert b. induction a as [|x a IH]; intros [|y b]; cbn; try reflexivity. rewrite IH, exp_plus. reflexivity. Qed.

  (** one step with given draws *)
  Lemma body_given s y t k idx ys : fine_m s -> length idx = n -> List.Forall (fun i => (i < n)%nat) idx ->
    length ys = n -> (forall x, In x ys -> In x supp) ->
    let x0 := if resamples s then map (fun i => nth i (m_value s) dx) idx else m_value s in
    let s' := filter_body dx (indices idx) (with_proposals dx F ys) thr n s y t k in
    length x0 = n /\ (forall x, In x x0 -> In x supp)
    /\ fine_m s' /\ m_value s' = ys /\ m_t s' = t
    /\ weights (m_lw s') = map (fun wx => fst wx * snd wx)
         (combine (used s) (map (fun xx => exp (w (fst xx) (m_t s) (snd xx) y t)) (combine x0 ys))).
  Proof.
    intros (L1 & S1 & a & La & Ea) Li Fi Ly Sy x0 s'.
    assert (Lx : length x0 = n) by (unfold x0; destruct (resamples s); [rewrite map_length|]; assumption).
    assert (Sx : forall x, In x x0 -> In x supp).
    { unfold x0. destruct (resamples s); [|exact S1]. intros x Hx. apply in_map_iff in Hx. destruct Hx as (i & <- & Hi).
      apply S1, nth_In. rewrite Forall_forall in Fi. rewrite L1. apply Fi, Hi. }
    assert (P : forall t0, propose (with_proposals dx F ys) x0 t0 y t (split_keys k n 0 n) = ys).
    { intros t0. unfold propose. apply nth_ext with (d := pick ys dx (KRoot 0)) (d' := dx).
      - rewrite map_length, combine_length, split_keys_length. lia.
      - intros i Hi. rewrite map_length, combine_length, split_keys_length in Hi.
        rewrite (nth_map_in _ _ _ (dx, KRoot 0)) by (rewrite combine_length, split_keys_length; exact Hi).
        rewrite combine_nth by (rewrite split_keys_length; exact Lx). cbn [snd with_proposals proposal_sample].
        rewrite split_keys_nth by lia. reflexivity. }
    assert (E : s' = Marginal ys (add_weights (if resamples s then zeros n else m_lw s)
         (increments (with_proposals dx F ys) x0 (m_t s) ys y t)) t y
         (ess_log_weight (add_weights (if resamples s then zeros n else m_lw s)
         (increments (with_proposals dx F ys) x0 (m_t s) ys y t)))).
    { unfold s', filter_body. cbv zeta. fold (PfSpec.resamples thr n s). rewrite L1.
      change (if resamples s then resample_row dx (indices idx) (m_value s) (m_lw s) k else m_value s) with x0.
      rewrite P. reflexivity. }
    assert (I : increments (with_proposals dx F ys) x0 (m_t s) ys y t
                = map Fin (map (fun xx => w (fst xx) (m_t s) (snd xx) y t) (combine x0 ys))).
    { unfold increments. rewrite map_map. apply map_ext_in. intros [x x'] Hx. cbn [fst snd with_proposals intermediate_log_weight].
      apply Hw; [apply in_combine_l in Hx; apply Sx, Hx | apply in_combine_r in Hx; apply Sy, Hx]. }
    assert (Z : exists b, length b = n /\ (if resamples s then zeros n else m_lw s) = map Fin b /\ map exp b = used s).
    { unfold used. destruct (resamples s).
      - exists (repeat 0 n). rewrite repeat_length, !map_repeat, exp_0. auto.
      - exists a. rewrite Ea, finite_map_weights. auto. }
    destruct Z as (b & Lb & Eb & Ub).
    split; [exact Lx|]. split; [exact Sx|]. rewrite E, I, Eb, add_fin. unfold fine_m. cbn [m_value m_lw m_t].
    split.
    - split; [exact Ly|]. split; [exact Sy|]. eexists. split; [|reflexivity].
      rewrite map_length, combine_length, map_length, combine_length. lia.
    - split; [reflexivity|]. split; [reflexivity|]. rewrite finite_map_weights, exp_add, Ub, map_map. reflexivity.
  Qed.

  Definition Qm (t0 : Tm) (y : obs) (t : Tm) (phi : X -> R) (x : X) : R :=
    mean (prop_law supp q x t0 y t) (fun x' => exp (w x t0 x' y t) * phi x').

  Definition value_of (z : R) (phi : X -> R) (s : marginal X Tm) : R := z * average phi s.

  Lemma index_prob lw : length lw = n -> (exists a, length a = n /\ lw = map Fin a) ->
    prob (index_law lw) /\ 0 < Rsum (weights lw).
  Proof.
    intros L (a & La & ->).
    assert (P : 0 < Rsum (weights (map Fin a))) by (rewrite finite_map_weights; apply map_exp_pos, La).
    split; [|exact P]. unfold prob, index_law. rewrite map_map. cbn [snd].
    rewrite (Rsum_ext _ (fun i => / Rsum (weights (map Fin a)) * weight (nth i (map Fin a) NInf))) by (intros; unfold Rdiv; lra).
    rewrite Rsum_scal, sum_nth. field. lra.
  Qed.

  Lemma mean_index lw (xs : list X) f : length lw = n -> length xs = n -> (exists a, length a = n /\ lw = map Fin a) ->
    mean (index_law lw) (fun i => f (nth i xs dx)) = weighted_mean (weights lw) (map f xs).
  Proof.
    intros L Lx H. destruct (index_prob lw L H) as [_ P]. unfold mean, index_law, weighted_mean. rewrite map_map. cbn [fst snd].
    rewrite (Rsum_ext _ (fun i => / Rsum (weights lw) * (weight (nth i lw NInf) * f (nth i xs dx)))) by (intros; unfold Rdiv; lra).
    rewrite Rsum_scal. unfold Rdiv. rewrite Rmult_comm. f_equal. f_equal.
    set (h := fun wx : R * R => fst wx * snd wx).
    apply nth_ext with (d := weight (nth 0 lw NInf) * f (nth 0 xs dx)) (d' := h (weight NInf, f dx)).
    - unfold weights. rewrite !map_length, seq_length, combine_length, !map_length. lia.
    - intros i Hi. rewrite map_length, seq_length in Hi.
      rewrite (map_nth (fun i => weight (nth i lw NInf) * f (nth i xs dx))), (map_nth h), seq_nth by exact Hi. unfold h.
      unfold weights. rewrite combine_nth by (rewrite !map_length; lia).
      rewrite !map_nth. reflexivity.
  Qed.

  Lemma step_mean_value z phi s y t k G : fine_m s ->
    (forall s', fine_m s' -> m_t s' = t ->
       G s' = value_of (z * (Rsum (weights (m_lw s')) / (if resamples s then INR n else Rsum (weights (m_lw s))))) phi s') ->
    filter_step_mean dx supp q F thr n s y t k G = value_of z (Qm (m_t s) y t phi) s.
  Proof.
    intros Fi HG. pose proof Fi as (L1 & S1 & a & La & Ea).
    destruct (used_sum s Fi) as (UL & US & UP).
    assert (Llw : length (m_lw s) = n) by (rewrite Ea, map_length; exact La).
    assert (Ex : exists a, length a = n /\ m_lw s = map Fin a) by (exists a; auto).
    destruct (index_prob (m_lw s) Llw Ex) as [Pi Pw].
    assert (Pr : List.Forall prob (repeat (index_law (m_lw s)) n)).
    { apply Forall_forall. intros d Hd. apply repeat_spec in Hd. subst d. exact Pi. }
    unfold filter_step_mean.
    rewrite (expect_ext _ _ (fun idx => z / Rsum (used s)
       * dot (used s) (map (Qm (m_t s) y t phi) (if resamples s then map (fun i => nth i (m_value s) dx) idx else m_value s)))).
    2: { intros idx Hidx. apply support_repeat in Hidx. destruct Hidx as [Li Hi].
         assert (Fi' : List.Forall (fun i => (i < n)%nat) idx).
         { eapply Forall_impl; [|exact Hi]. cbn. intros i H. unfold index_law in H. rewrite map_map in H. cbn in H.
           rewrite map_id in H. apply in_seq in H. lia. }
         cbv zeta. set (x0 := if resamples s then _ else _).
         assert (XS : length x0 = n /\ forall x, In x x0 -> In x supp).
         { unfold x0. destruct (resamples s); [|auto]. split; [rewrite map_length; exact Li|].
           intros x Hx. apply in_map_iff in Hx. destruct Hx as (i & <- & H).
           apply S1, nth_In. rewrite Forall_forall in Fi'. rewrite L1. apply Fi', H. }
         destruct XS as [Lx Sx].
         rewrite (expect_ext _ _ (fun ys => 0 + z / Rsum (used s) * dot (used s)
            (map (fun by_ => (fun x x' => exp (w x (m_t s) x' y t) * phi x') (fst by_) (snd by_)) (combine x0 ys)))).
         2: { intros ys Hys.
              assert (L12 : length ys = length x0 /\ forall x, In x ys -> In x supp).
              { eapply (support_map _ _ (fun x => In x supp) ys); [|exact Hys]. intros b x _ Hx.
                unfold prop_law in Hx. rewrite map_map in Hx. cbn in Hx. rewrite map_id in Hx. exact Hx. }
              destruct L12 as [Ly Sy]. rewrite Lx in Ly.
              destruct (body_given s y t k idx ys Fi Li Fi' Ly Sy) as (_ & _ & F' & V' & T' & W'). fold x0 in W'.
              rewrite HG by assumption. rewrite <- US. unfold value_of, average, weighted_mean. rewrite V'.
              assert (P' : 0 < Rsum (weights (m_lw (filter_body dx (indices idx) (with_proposals dx F ys) thr n s y t k)))).
              { destruct F' as (_ & _ & a' & La' & Ea'). rewrite Ea', finite_map_weights. apply map_exp_pos, La'. }
              rewrite W'. rewrite W' in P'.
              rewrite dot_assoc by (rewrite ?map_length, ?combine_length; lia).
              assert (M : map (fun wx => fst wx * snd wx) (combine (map (fun xx => exp (w (fst xx) (m_t s) (snd xx) y t)) (combine x0 ys)) (map phi ys))
                = map (fun by_ => exp (w (fst by_) (m_t s) (snd by_) y t) * phi (snd by_)) (combine x0 ys)).
              { clear -Lx Ly. assert (L : length x0 = length ys) by congruence. clear Lx Ly. revert ys L.
                induction x0 as [|x x0 IH]; intros [|x' ys] L; cbn in *; try discriminate; [reflexivity|]. rewrite IH by lia. reflexivity. }
              rewrite M. field. lra. }
         assert (Pk : List.Forall (fun x => prob (prop_law supp q x (m_t s) y t)) x0).
         { apply Forall_forall. intros x Hx. unfold prob, prop_law. rewrite map_map. cbn. apply Hq. apply Sx, Hx. }
         rewrite expect_affine.
         2: { apply Forall_forall. intros d Hd. apply in_map_iff in Hd. destruct Hd as (x & <- & Hx). rewrite Forall_forall in Pk. apply Pk, Hx. }
         pose proof (expect_dot2 (fun x => prop_law supp q x (m_t s) y t) (fun x x' => exp (w x (m_t s) x' y t) * phi x') x0 (used s) Pk) as ED.
         cbv beta in ED |- *. rewrite ED. unfold Qm. lra. }
    unfold value_of, average. destruct (resamples s) eqn:Rs.
    - assert (UE : used s = repeat 1 n) by (unfold used; rewrite Rs; reflexivity).
      rewrite (expect_ext _ _ (fun idx => 0 + z / Rsum (used s) * dot (used s) (map (fun i => Qm (m_t s) y t phi (nth i (m_value s) dx)) idx))).
      2: { intros idx _. rewrite map_map. lra. }
      rewrite expect_affine, expect_dot by exact Pr.
      rewrite map_repeat, (mean_index (m_lw s) (m_value s) (Qm (m_t s) y t phi)) by auto.
      rewrite US, UE, dot_scaled. pose proof n_pos. field. lra.
    - rewrite expect_const by exact Pr. unfold used. rewrite Rs. unfold weighted_mean. unfold used in UP. rewrite Rs in UP. field. lra.
  Qed.

  Fixpoint Qms (t0 : Tm) (yts : list (obs * Tm)) (phi : X -> R) : X -> R :=
    match yts with
    | [] => phi
    | (y, t) :: r => Qm t0 y t (Qms t r phi)
    end.

  Lemma scan_mean_value yts : forall ks z phi s G, fine_m s -> length ks = length yts ->
    (forall ms, List.Forall fine_m ms -> G ms = evidence_from thr n z s ms * average phi (last ms s)) ->
    filter_scan_mean dx supp q F thr n s yts ks G = value_of z (Qms (m_t s) yts phi) s.
  Proof.
    induction yts as [|[y t] yts IH]; intros [|k ks] z phi s G Fi L HG; try discriminate; cbn [filter_scan_mean Qms].
    - rewrite HG by constructor. reflexivity.
    - apply step_mean_value; [exact Fi|]. intros s' F' T'. rewrite <- T'. apply IH; [exact F'|cbn in L; lia|].
      intros ms Fm. rewrite HG by (constructor; assumption). cbn [evidence_from]. f_equal. f_equal.
      destruct ms as [|m ms]; [reflexivity|]. change (last (s' :: m :: ms) s) with (last (m :: ms) s).
      clear. revert m. induction ms as [|m2 ms IH]; intros m; [reflexivity|]. apply IH.
  Qed.

  (** the initial particles *)
  Lemma initial_given vs k0 y0 t0 : length vs = n -> (forall x, In x vs -> In x supp) ->
    exists s, last_marginal (initiate_particles (with_initial dx F vs) n k0 y0 t0) = Some s
    /\ fine_m s /\ m_value s = vs /\ m_t s = t0 /\ weights (m_lw s) = map (fun x => exp (w0 x y0 t0)) vs.
  Proof.
    intros L S. unfold initiate_particles, last_marginal. cbn [value FilterModel.log_weight times observed ess at_last rev app].
    eexists. split; [reflexivity|].
    assert (V : map (fun k => initial_sample (with_initial dx F vs) y0 t0 k) (split_keys k0 n 0 n) = vs).
    { apply nth_ext with (d := dx) (d' := dx).
      - rewrite map_length, split_keys_length. auto.
      - intros i Hi. rewrite map_length, split_keys_length in Hi.
        rewrite (nth_map_in _ _ _ (KRoot 0)) by (rewrite split_keys_length; exact Hi). rewrite split_keys_nth by exact Hi. reflexivity. }
    assert (W : map (fun x => initial_log_weight (with_initial dx F vs) x y0 t0) vs = map Fin (map (fun x => w0 x y0 t0) vs)).
    { rewrite map_map. apply map_ext_in. intros x Hx. apply Hw0, S, Hx. }
    cbv zeta. rewrite V, W. unfold fine_m. cbn [m_value m_lw m_t].
    split.
    - split; [exact L|]. split; [exact S|]. eexists. split; [|reflexivity]. rewrite map_length. exact L.
    - split; [reflexivity|]. split; [reflexivity|]. rewrite finite_map_weights, map_map. reflexivity.
  Qed.

  Theorem filter_mean_value y0 t0 yts k0 ks phi G : length ks = length yts ->
    (forall s ms, fine_m s -> List.Forall fine_m ms -> G s ms = evidence thr n s ms * average phi (last ms s)) ->
    filter_mean dx supp mu q F thr n y0 t0 yts k0 ks G
    = Rsum (map (fun x => mu x * (exp (w0 x y0 t0) * Qms t0 yts phi x)) supp).
  Proof.
    intros Lk HG. unfold filter_mean.
    assert (P1 : prob (init_law supp mu)) by (unfold prob, init_law; rewrite map_map; exact Hmu).
    assert (Pr : List.Forall prob (repeat (init_law supp mu) n)).
    { apply Forall_forall. intros d Hd. apply repeat_spec in Hd. subst d. exact P1. }
    rewrite (expect_ext _ _ (fun vs => 0 + / INR n * dot (repeat 1 n) (map (fun x => exp (w0 x y0 t0) * Qms t0 yts phi x) vs))).
    2: { intros vs Hvs. apply support_repeat in Hvs. destruct Hvs as [Lv Hv].
         assert (Sv : forall x, In x vs -> In x supp).
         { rewrite Forall_forall in Hv. intros x Hx. specialize (Hv x Hx). unfold init_law in Hv. rewrite map_map in Hv. cbn in Hv.
           rewrite map_id in Hv. exact Hv. }
         destruct (initial_given vs k0 y0 t0 Lv Sv) as (s & -> & Fs & Vs & Ts & Ws).
         rewrite (scan_mean_value yts ks (Rsum (weights (m_lw s)) / INR n) phi s _ Fs Lk) by (intros ms Fm; apply HG; assumption).
         unfold value_of, average, weighted_mean. rewrite Vs, Ts, Ws.
         assert (Pw : 0 < Rsum (map (fun x => exp (w0 x y0 t0)) vs)).
         { apply Rsum_pos; [destruct vs; [cbn in Lv; lia|discriminate]|]. intros; apply exp_pos. }
         assert (M : dot (repeat 1 n) (map (fun x => exp (w0 x y0 t0) * Qms t0 yts phi x) vs)
           = dot (map (fun x => exp (w0 x y0 t0)) vs) (map (Qms t0 yts phi) vs)).
         { rewrite <- Lv. clear. induction vs as [|v vs IH]; cbn; [reflexivity|]. cbn in IH. rewrite IH. lra. }
         rewrite M. pose proof n_pos. field. lra. }
    rewrite expect_affine, expect_dot by exact Pr. rewrite map_repeat, dot_scaled.
    unfold mean, init_law. rewrite map_map. cbn [fst snd]. pose proof n_pos. field. lra.
  Qed.

  (** the pulled-back test function against the forward recursion *)
  Variable trans : X -> Tm -> X -> Tm -> R.
  Variable like : X -> obs -> Tm -> R.
  Hypothesis Hqw : forall x t0 y t x', In x supp -> In x' supp ->
    q x t0 y t x' * exp (w x t0 x' y t) = trans x t0 x' t * like x' y t.

  Lemma Qms_forward yts : forall t0 a phi,
    Rsum (map (fun x => a x * Qms t0 yts phi x) supp) = Rsum (map (fun x => forward supp trans like a t0 yts x * phi x) supp).
  Proof.
    induction yts as [|[y t] yts IH]; intros t0 a phi; [reflexivity|]. cbn [Qms forward].
    rewrite <- IH. unfold Qm, mean, prop_law.
    rewrite (Rsum_ext _ (fun x => Rsum (map (fun x' => a x * trans x t0 x' t * like x' y t * Qms t yts phi x') supp))).
    2: { intros x Hx. rewrite map_map. cbn [fst snd]. rewrite <- Rsum_scal. apply Rsum_ext. intros x' Hx'.
         transitivity (a x * (q x t0 y t x' * exp (w x t0 x' y t)) * Qms t yts phi x'); [ring|].
         rewrite Hqw by assumption. ring. }
    rewrite Rsum_swap. apply Rsum_ext. intros x' _.
    rewrite (Rsum_ext _ (fun x => (like x' y t * Qms t yts phi x') * (a x * trans x t0 x' t))) by (intros; ring).
    rewrite Rsum_scal. ring.
  Qed.

  Theorem filter_mean_forward y0 t0 yts k0 ks phi G : length ks = length yts ->
    (forall s ms, fine_m s -> List.Forall fine_m ms -> G s ms = evidence thr n s ms * average phi (last ms s)) ->
    (forall x, In x supp -> exp (w0 x y0 t0) = like x y0 t0) ->
    filter_mean dx supp mu q F thr n y0 t0 yts k0 ks G
    = Rsum (map (fun x => forward supp trans like (fun x => mu x * like x y0 t0) t0 yts x * phi x) supp).
  Proof.
    intros Lk HG H0. rewrite (filter_mean_value y0 t0 yts k0 ks phi G Lk HG). rewrite <- Qms_forward. apply Rsum_ext.
    intros x Hx. rewrite H0 by exact Hx. ring.
  Qed.

  Lemma average_one s ms : fine_m s -> List.Forall fine_m ms -> average (fun _ => 1) (last ms s) = 1.
  Proof.
    intros Fs Fm.
    assert (Fl : fine_m (last ms s)).
    { induction Fm as [|m ms F1 F2 IH]; [exact Fs|]. destruct ms; [exact F1|exact IH]. }
    destruct Fl as (L & _ & a & La & Ea). unfold average, weighted_mean. rewrite Ea, finite_map_weights.
    pose proof (map_exp_pos a La) as P.
    assert (D : dot (map exp a) (map (fun _ => 1) (m_value (last ms s))) = Rsum (map exp a)).
    { rewrite <- La in L. clear -L. revert L. generalize (m_value (last ms s)). induction a as [|x a IH]; intros [|v l] L; cbn in *; try discriminate; [reflexivity|].
      rewrite IH by lia. lra. }
    rewrite D. field. lra.
  Qed.
End P.
