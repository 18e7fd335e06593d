(** Proofs: a particle filter's run, computed from one key, has the law of the
    nested sums of PfSpec. *)
From Coq Require Import Reals List Bool Arith Lia Lra.
From Verif Require Import XR Keys HmcModel WeightsModel WeightsSpec WeightsProofs SmcSpec SmcNorm SmcProps UnbSpec UnbProofs
  FilterModel FilterProofs PfSpec PfProofs KexpSpec KexpProofs RejLawProofs PfLawSpec.
Import ListNotations.
Open Scope R_scope.

Section L.
  Context {X Tm W : Type}.
  Variable dx : X.
  Variable supp : list X.
  Variable P : law W.
  Hypothesis HP : prob P.
  Variable mu : X -> R.
  Variable q : X -> Tm -> obs -> Tm -> X -> R.
  Variable thr : R.
  Variable n : nat.
  Variable w0 : X -> obs -> Tm -> R.
  Variable w1 : X -> Tm -> X -> obs -> Tm -> R.
  (** samplers as functions of the value at a key *)
  Variable isamp : obs -> Tm -> W -> X.
  Variable psamp : X -> Tm -> obs -> Tm -> W -> X.
  Variable cat : W -> list xr -> nat -> list nat.
  Variable ilw : X -> obs -> Tm -> xr.
  Variable plw : X -> Tm -> X -> obs -> Tm -> xr.
  Definition stream_filter (w : key -> W) : pfilter X Tm :=
    PFilter (fun y t k => isamp y t (w k)) ilw (fun x t y t' k => psamp x t y t' (w k)) plw.
  Variable F : pfilter X Tm.
  Hypothesis HF0 : initial_log_weight F = ilw.
  Hypothesis HF1 : intermediate_log_weight F = plw.

  Hypothesis Hw0 : forall x y t, In x supp -> ilw x y t = Fin (w0 x y t).
  Hypothesis Hw : forall x t0 x' y t, In x supp -> In x' supp -> plw x t0 x' y t = Fin (w1 x t0 x' y t).
  Hypothesis Hn : (0 < n)%nat.
  Hypothesis Hcat : forall x lw, length lw = n -> length (cat x lw n) = n /\ List.Forall (fun i => (i < n)%nat) (cat x lw n).
  Hypothesis Hiin : forall y t x, In (isamp y t x) supp.
  Hypothesis Hpin : forall x t y t' z, In x supp -> In (psamp x t y t' z) supp.
  Variables (y0 : obs) (t0 : Tm) (yts0 : list (obs * Tm)).
  Hypothesis Hil : forall phi, mean P (fun z => phi (isamp y0 t0 z)) = mean (init_law supp mu) phi.
  Hypothesis Hpl : forall x t y t' phi, In x supp -> mean P (fun z => phi (psamp x t y t' z)) = mean (prop_law supp q x t y t') phi.
  Hypothesis Hmult : forall y t r s, visited dx supp F thr n y0 t0 yts0 ((y, t) :: r) s -> resamples thr n s = true ->
    multinomial_draws n P cat (m_lw s).

  Let HF0' : forall x y t, In x supp -> initial_log_weight F x y t = Fin (w0 x y t).
  Proof. rewrite HF0. exact Hw0. Qed.
  Let HF1' : forall x t x' y t', In x supp -> In x' supp -> intermediate_log_weight F x t x' y t' = Fin (w1 x t x' y t').
  Proof. rewrite HF1. exact Hw. Qed.

  Definition body (w : key -> W) (s : marginal X Tm) (y : obs) (t : Tm) (k : key) : marginal X Tm :=
    filter_body dx (fun k => cat (w k)) (stream_filter w) thr n s y t k.
  Definition scan (w : key -> W) := filter_scan dx (fun k => cat (w k)) (stream_filter w) thr n.

  Definition givenx (s : marginal X Tm) (idx : list nat) : list X :=
    if resamples thr n s then map (fun i => nth i (m_value s) dx) idx else m_value s.
  Definition giveny (w : key -> W) (x0 : list X) (t0 : Tm) (y : obs) (t : Tm) (ks : list key) : list X :=
    map (fun xk => psamp (fst xk) t0 y t (w (snd xk))) (combine x0 ks).
  Definition givens (s : marginal X Tm) (y : obs) (t : Tm) (k : key) (idx : list nat) (ys : list X) : marginal X Tm :=
    filter_body dx (indices idx) (with_proposals dx F ys) thr n s y t k.

  Lemma fine_props s : fine_m supp n s -> length (m_value s) = n /\ length (m_lw s) = n
    /\ forall idx, length idx = n -> List.Forall (fun i => (i < n)%nat) idx ->
         length (givenx s idx) = n /\ (forall x, In x (givenx s idx) -> In x supp).
  Proof.
    intros (L & S & a & La & Ea). split; [exact L|]. split; [rewrite Ea, map_length; exact La|].
    intros idx Li Fi. unfold givenx. destruct (resamples thr n s); [|auto]. split; [rewrite map_length; exact Li|].
    intros x Hx. apply in_map_iff in Hx. destruct Hx as (i & <- & Hi). apply S, nth_In. rewrite L. rewrite Forall_forall in Fi. apply Fi, Hi.
  Qed.

  Lemma giveny_ok w x0 t1 y t ks : length x0 = n -> length ks = n -> (forall x, In x x0 -> In x supp) ->
    length (giveny w x0 t1 y t ks) = n /\ incl (giveny w x0 t1 y t ks) supp.
  Proof.
    intros L1 L2 S. split; [unfold giveny; rewrite map_length, combine_length; lia|].
    intros x Hx. apply in_map_iff in Hx. destruct Hx as ([x1 k] & <- & H). apply in_combine_l in H. apply Hpin, S, H.
  Qed.

  (** the body is the body with given draws *)
  Lemma propose_given ys x0 t1 y t k : length ys = n -> length x0 = n ->
    propose (with_proposals dx F ys) x0 t1 y t (split_keys k n 0 n) = ys.
  Proof.
    intros Ly Lx. unfold propose. apply nth_ext with (d := pick ys dx (KRoot 0)) (d' := dx).
    - rewrite map_length, combine_length, split_keys_length. lia.
    - intros i Hi. rewrite map_length, combine_length, split_keys_length in Hi.
      rewrite (nth_map_in _ _ _ (dx, KRoot 0)) by (rewrite combine_length, split_keys_length; exact Hi).
      rewrite combine_nth by (rewrite split_keys_length; exact Lx). cbn [snd with_proposals proposal_sample].
      rewrite split_keys_nth by lia. reflexivity.
  Qed.

  Lemma body_eq w s y t k : fine_m supp n s ->
    let idx := cat (w k) (m_lw s) n in
    let ys := giveny w (givenx s idx) (m_t s) y t (split_keys k n 0 n) in
    body w s y t k = givens s y t k idx ys
    /\ (length idx = n /\ List.Forall (fun i => (i < n)%nat) idx) /\ length ys = n /\ incl ys supp.
  Proof.
    intros Fi idx ys. destruct (fine_props s Fi) as (L & Lw & Gx).
    destruct (Hcat (w k) (m_lw s) Lw) as [C1 C2]. fold idx in C1, C2. destruct (Gx idx C1 C2) as [Lx Sx].
    destruct (giveny_ok w (givenx s idx) (m_t s) y t (split_keys k n 0 n) Lx (split_keys_length _ _ _ _) Sx) as [Ly Sy]. fold ys in Ly, Sy.
    split; [|repeat split; assumption].
    unfold body, givens, filter_body. cbv zeta. rewrite L.
    fold (resamples thr n s).
    change (if resamples thr n s then resample_row dx (fun k0 => cat (w k0)) (m_value s) (m_lw s) k else m_value s)
      with (if resamples thr n s then take dx (m_value s) (cat (w k) (m_lw s) (length (m_value s))) else m_value s).
    change (if resamples thr n s then resample_row dx (indices idx) (m_value s) (m_lw s) k else m_value s) with (givenx s idx).
    rewrite L. change (if resamples thr n s then take dx (m_value s) (cat (w k) (m_lw s) n) else m_value s) with (givenx s idx).
    rewrite (propose_given ys (givenx s idx)) by assumption.
    change (propose (stream_filter w) (givenx s idx) (m_t s) y t (split_keys k n 0 n)) with ys.
    unfold increments. cbn [stream_filter with_proposals intermediate_log_weight]. rewrite HF1. reflexivity.
  Qed.

  Lemma body_fine w s y t k r : fine_m supp n s -> visited dx supp F thr n y0 t0 yts0 ((y, t) :: r) s ->
    fine_m supp n (body w s y t k) /\ visited dx supp F thr n y0 t0 yts0 r (body w s y t k).
  Proof.
    intros Fi V. destruct (body_eq w s y t k Fi) as (E & (C1 & C2) & Ly & Sy).
    rewrite E. split; [|apply visited_step; assumption].
    apply (body_given dx supp F thr n w1 HF1' Hn s y t k _ _ Fi C1 C2 Ly (fun x H => Sy x H)).
  Qed.

  (** * Laws *)
  Lemma y_drawn t1 y t k m : forall x0 a, (forall x, In x x0 -> In x supp) ->
    drawn P (split_keys k m a (length x0)) (fun w => giveny w x0 t1 y t (split_keys k m a (length x0)))
      (expect (map (fun x => prop_law supp q x t1 y t) x0)).
  Proof.
    induction x0 as [|x x0 IH]; intros a Su.
    - apply (drawn_const P HP (@nil X)).
    - unfold giveny, split_keys. cbn [length seq combine map fst snd].
      apply (drawn_cons P [KSplit k m a] (split_keys k m (S a) (length x0))).
      + apply (drawn_law P _ _ (fun phi => mean P (fun z => phi (psamp x t1 y t z)))).
        * intros phi. apply Hpl, Su. left. reflexivity.
        * apply (drawn_key P HP (KSplit k m a) (fun z => psamp x t1 y t z)).
      + apply IH. intros x' H. apply Su. right. exact H.
      + intros p [<-|[]] H. apply in_map_iff in H. destruct H as (i & H & Hi). apply in_seq in Hi. injection H as H. lia.
  Qed.

  Definition bkeys (k : key) : list key := k :: split_keys k n 0 n.
  Lemma bkeys_derived k p : In p (bkeys k) -> derived k p.
  Proof.
    intros [<-|H]; [constructor|]. apply in_map_iff in H. destruct H as (i & <- & _). repeat constructor.
  Qed.

  Lemma body_drawn s y t k r : fine_m supp n s -> visited dx supp F thr n y0 t0 yts0 ((y, t) :: r) s ->
    drawn P (bkeys k) (fun w => body w s y t k) (filter_step_mean dx supp q F thr n s y t k).
  Proof.
    intros Fi V. destruct (fine_props s Fi) as (L & Lw & Gx).
    set (GG := fun (idx : list nat) (w : key -> W) => givens s y t k idx (giveny w (givenx s idx) (m_t s) y t (split_keys k n 0 n))).
    set (NN := fun (idx : list nat) (phi : marginal X Tm -> R) =>
      expect (map (fun x => prop_law supp q x (m_t s) y t) (givenx s idx)) (fun ys => phi (givens s y t k idx ys))).
    apply (drawn_ext P _ (fun w => GG (cat (w k) (m_lw s) n) w)).
    { intros w. symmetry. apply (body_eq w s y t k Fi). }
    assert (B : forall idx, length idx = n -> List.Forall (fun i => (i < n)%nat) idx -> drawn P (split_keys k n 0 n) (GG idx) (NN idx)).
    { intros idx C1 C2. destruct (Gx idx C1 C2) as [Lx Sx].
      apply (drawn_map P _ (fun w => giveny w (givenx s idx) (m_t s) y t (split_keys k n 0 n)) (givens s y t k idx)).
      pose proof (y_drawn (m_t s) y t k n (givenx s idx) 0 Sx) as Y. rewrite Lx in Y. exact Y. }
    assert (Bw : forall w : key -> W, drawn P (split_keys k n 0 n) (GG (cat (w k) (m_lw s) n)) (NN (cat (w k) (m_lw s) n))).
    { intros w. destruct (Hcat (w k) (m_lw s) Lw). apply B; assumption. }
    destruct (resamples thr n s) eqn:C.
    - apply (drawn_bind P [k] (split_keys k n 0 n) (fun w => cat (w k) (m_lw s) n) GG
               (expect (repeat (index_law (m_lw s)) n)) NN).
      + apply (drawn_law P _ _ (fun phi => mean P (fun x => phi (cat x (m_lw s) n)))).
        * apply (Hmult y t r s V C).
        * apply (drawn_key P HP k (fun x => cat x (m_lw s) n)).
      + intros p [<-|[]] H. apply in_map_iff in H. destruct H as (i & H & _).
        apply (f_equal ksize) in H. cbn in H. lia.
      + exact Bw.
    - assert (EQ : forall idx idx' w, GG idx w = GG idx' w /\ forall phi, NN idx phi = NN idx' phi).
      { intros idx idx' w. unfold GG, NN, givens, filter_body, givenx. fold (resamples thr n s). rewrite C. split; reflexivity. }
      apply (drawn_incl P (split_keys k n 0 n)). { intros p Hp. right. exact Hp. }
      destruct P as [|[x0 p0] Pt] eqn:EP; [unfold prob in HP; cbn in HP; lra|]. rewrite <- EP in *.
      specialize (Bw (fun _ => x0)). cbv beta in Bw. set (i0 := cat x0 (m_lw s) n) in *.
      apply (drawn_ext P _ (GG i0)). { intros w. apply EQ. }
      eapply drawn_law; [|exact Bw]. intros phi. unfold filter_step_mean.
      change (NN i0 phi = expect (repeat (index_law (m_lw s)) n) (fun idx => NN idx phi)).
      rewrite (expect_ext _ _ (fun _ => NN i0 phi)).
      + symmetry. apply expect_const. apply Forall_forall. intros d Hd. apply repeat_spec in Hd. subst d.
        destruct Fi as (_ & _ & ex). apply (index_prob n Hn (m_lw s) Lw ex).
      + intros idx _. apply (EQ idx i0 (fun _ => x0)).
  Qed.

  Definition scan_keys (ks : list key) : list key := flat_map bkeys ks.

  Lemma scan_drawn yts : forall ks s, length ks = length yts -> ForallOrdPairs incomp ks ->
    fine_m supp n s -> visited dx supp F thr n y0 t0 yts0 yts s ->
    drawn P (scan_keys ks) (fun w => scan w s yts ks) (filter_scan_mean dx supp q F thr n s yts ks).
  Proof.
    induction yts as [|[y t] yts IH]; intros [|k ks] s L I Fi V; try discriminate.
    - apply (drawn_const P HP (@nil (marginal X Tm))).
    - inversion I as [|? ? I1 I2]; subst.
      unfold scan. cbn [filter_scan filter_scan_mean scan_keys flat_map].
      apply (drawn_bind P (bkeys k) (scan_keys ks) (fun w => body w s y t k) (fun s' w => s' :: scan w s' yts ks)
               (filter_step_mean dx supp q F thr n s y t k)
               (fun s' G => filter_scan_mean dx supp q F thr n s' yts ks (fun ms => G (s' :: ms)))).
      + apply (body_drawn s y t k yts Fi V).
      + intros p H1 H2. apply bkeys_derived in H1. apply in_flat_map in H2. destruct H2 as (k' & Hk & H2). apply bkeys_derived in H2.
        rewrite Forall_forall in I1. apply (I1 k' Hk p H1 H2).
      + intros w. destruct (body_fine w s y t k yts Fi V) as [F' V'].
        apply (drawn_map P _ (fun w' => scan w' (body w s y t k) yts ks) (fun ms => body w s y t k :: ms)).
        apply IH; try assumption. cbn in L. lia.
  Qed.

  (** * Whole runs *)
  Definition draws0 (w : key -> W) (k : key) : list X := map (fun k => isamp y0 t0 (w k)) (split_keys k n 0 n).
  Lemma draws0_ok w k : length (draws0 w k) = n /\ incl (draws0 w k) supp.
  Proof.
    split; [unfold draws0; rewrite map_length; apply split_keys_length|].
    intros x Hx. apply in_map_iff in Hx. destruct Hx as (i & <- & _). apply Hiin.
  Qed.
  Lemma draws0_drawn k m c : forall a, drawn P (split_keys k m a c) (fun w => map (fun k => isamp y0 t0 (w k)) (split_keys k m a c))
    (expect (repeat (init_law supp mu) c)).
  Proof.
    induction c as [|c IH]; intros a.
    - apply (drawn_const P HP (@nil X)).
    - unfold split_keys. cbn [seq map repeat]. apply (drawn_cons P [KSplit k m a] (split_keys k m (S a) c)).
      + apply (drawn_law P _ _ (fun phi => mean P (fun x => phi (isamp y0 t0 x)))); [exact Hil|].
        apply (drawn_key P HP (KSplit k m a) (isamp y0 t0)).
      + apply IH.
      + intros p [<-|[]] H. apply in_map_iff in H. destruct H as (i & H & Hi). apply in_seq in Hi. injection H as H. lia.
  Qed.

  Lemma initiate_given w k : initiate_particles (stream_filter w) n k y0 t0
    = initiate_particles (with_initial dx F (draws0 w k)) n k y0 t0.
  Proof.
    unfold initiate_particles. cbv zeta. cbn [stream_filter with_initial initial_sample initial_log_weight].
    assert (V : map (fun k0 => pick (draws0 w k) dx k0) (split_keys k n 0 n) = draws0 w k).
    { destruct (draws0_ok w k) as [L _]. apply nth_ext with (d := dx) (d' := dx).
      - rewrite map_length, split_keys_length. auto.
      - intros i Hi. rewrite map_length, split_keys_length in Hi.
        rewrite (nth_map_in _ _ _ (KRoot 0)) by (rewrite split_keys_length; exact Hi). rewrite split_keys_nth by exact Hi. reflexivity. }
    rewrite V. rewrite HF0. reflexivity.
  Qed.

  Definition particles_of (s : marginal X Tm) (ms : list (marginal X Tm)) : particles X Tm :=
    Particles (map (@m_value X Tm) (s :: ms)) (map (@m_lw X Tm) (s :: ms)) (map (@m_t X Tm) (s :: ms)) (Rows (map (@m_y X Tm) (s :: ms)))
      (map (@m_ess X Tm) (s :: ms)).
  Lemma recorded_of s ms : recorded (particles_of s ms) = s :: ms.
  Proof.
    unfold recorded, particles_of. cbn [observed value log_weight times ess]. generalize (s :: ms). intros l.
    induction l as [|m l IH]; [reflexivity|]. cbn [map rows]. rewrite IH. destruct m. reflexivity.
  Qed.

  Notation run w ys ts k := (run_particle_filter dx (fun k => cat (w k)) (stream_filter w) n (y0 :: ys) (t0 :: ts) k thr).

  Lemma run_record w ys ts k :
    exists s, last_marginal (initiate_particles (with_initial dx F (draws0 w (KSplit k 2 1))) n (KSplit k 2 1) y0 t0) = Some s
    /\ run w ys ts k = Some (particles_of s (scan w s (combine ys ts) (split_keys (KSplit k 2 0) (length ys) 0 (length ys)))).
  Proof.
    cbn [run_particle_filter]. rewrite initiate_given. set (p := initiate_particles _ _ _ _ _).
    assert (H : exists s, last_marginal p = Some s /\ observed p = Rows [m_y s] /\ value p = [m_value s] /\ log_weight p = [m_lw s] /\ times p = [m_t s] /\ ess p = [m_ess s]
                 /\ length (m_value s) = n).
    { unfold p, initiate_particles. cbv zeta. unfold last_marginal. cbn [value log_weight times observed ess at_last rev app].
      eexists. split; [reflexivity|]. cbn [m_value m_lw m_t m_y m_ess]. repeat (split; [reflexivity|]).
      rewrite map_length. apply split_keys_length. }
    destruct H as (s & Hs & Ho & Hv & Hlw & Ht & He & Hl). exists s. split; [exact Hs|].
    unfold run_from. rewrite Hs, Ho, Hl, Hv, Hlw, Ht, He. reflexivity.
  Qed.

  Definition run_keys (T : nat) (k : key) : list key :=
    split_keys (KSplit k 2 1) n 0 n ++ scan_keys (split_keys (KSplit k 2 0) T 0 T).
  Lemma run_keys_derived T k p : In p (run_keys T k) -> derived k p.
  Proof.
    intros H. apply in_app_or in H. destruct H as [H|H].
    - apply in_map_iff in H. destruct H as (i & <- & _). repeat constructor.
    - apply in_flat_map in H. destruct H as (k' & Hk & H). apply in_map_iff in Hk. destruct Hk as (j & <- & _).
      apply bkeys_derived in H. apply (derived_trans _ (KSplit (KSplit k 2 0) T j)); [repeat constructor|exact H].
  Qed.

  (** the output of a run, whatever is drawn *)
  Lemma scan_fine w yts : forall ks s, length ks = length yts -> fine_m supp n s -> visited dx supp F thr n y0 t0 yts0 yts s ->
    List.Forall (fine_m supp n) (scan w s yts ks) /\ length (scan w s yts ks) = length yts.
  Proof.
    induction yts as [|[y t] yts IH]; intros [|k ks] s L Fi V; try discriminate; [split; [constructor|reflexivity]|].
    unfold scan. cbn [filter_scan]. cbn in L. destruct (body_fine w s y t k yts Fi V) as [F' V'].
    destruct (IH ks (body w s y t k) ltac:(lia) F' V') as [A B]. split; [constructor; assumption|]. cbn [length]. f_equal. exact B.
  Qed.
  Lemma run_output w ys ts k : length ys = length ts -> combine ys ts = yts0 ->
    exists s ms, run w ys ts k = Some (particles_of s ms) /\ fine_m supp n s /\ List.Forall (fine_m supp n) ms /\ length ms = length ys.
  Proof.
    intros Ll Hy. destruct (run_record w ys ts k) as (s & Es & Er). rewrite Hy in Er.
    destruct (draws0_ok w (KSplit k 2 1)) as [Lv Sv].
    destruct (initial_given dx supp F n w0 HF0' (draws0 w (KSplit k 2 1)) (KSplit k 2 1) y0 t0 Lv (fun x H => Sv x H)) as (s' & Es' & Fs & _).
    rewrite Es in Es'. injection Es' as <-.
    assert (LL : length yts0 = length ys) by (rewrite <- Hy, combine_length; lia).
    destruct (scan_fine w yts0 (split_keys (KSplit k 2 0) (length ys) 0 (length ys)) s) as [A B].
    - rewrite split_keys_length. lia.
    - exact Fs.
    - apply (visited_start dx supp F thr n y0 t0 yts0 (draws0 w (KSplit k 2 1)) (KSplit k 2 1)); assumption.
    - eexists _, _. split; [exact Er|]. split; [exact Fs|]. split; [exact A|]. lia.
  Qed.

  Theorem run_drawn ys ts k : length ys = length ts -> combine ys ts = yts0 ->
    drawn P (run_keys (length ys) k) (fun w => run w ys ts k)
      (fun phi => filter_mean dx supp mu q F thr n y0 t0 yts0 (KSplit k 2 1) (split_keys (KSplit k 2 0) (length ys) 0 (length ys))
         (fun s ms => phi (Some (particles_of s ms)))).
  Proof.
    intros Ll Hy. set (ks := split_keys (KSplit k 2 0) (length ys) 0 (length ys)).
    set (GG := fun (vs : list X) (w : key -> W) =>
      match last_marginal (initiate_particles (with_initial dx F vs) n (KSplit k 2 1) y0 t0) with
      | Some s => Some (particles_of s (scan w s yts0 ks)) | None => None end).
    set (NN := fun (vs : list X) (phi : option (particles X Tm) -> R) =>
      match last_marginal (initiate_particles (with_initial dx F vs) n (KSplit k 2 1) y0 t0) with
      | Some s => filter_scan_mean dx supp q F thr n s yts0 ks (fun ms => phi (Some (particles_of s ms))) | None => 0 end).
    apply (drawn_ext P _ (fun w => GG (draws0 w (KSplit k 2 1)) w)).
    { intros w. unfold GG. destruct (run_record w ys ts k) as (s & -> & ->). rewrite Hy. reflexivity. }
    apply (drawn_bind P (split_keys (KSplit k 2 1) n 0 n) (scan_keys ks) (fun w => draws0 w (KSplit k 2 1)) GG
             (expect (repeat (init_law supp mu) n)) NN).
    - apply draws0_drawn.
    - intros p H1 H2. apply in_map_iff in H1. destruct H1 as (i & <- & _). apply in_flat_map in H2. destruct H2 as (k' & Hk & H2).
      apply in_map_iff in Hk. destruct Hk as (j & <- & _). apply bkeys_derived in H2.
      apply (incomp_children k 2 0 2 1 ltac:(lia) (KSplit (KSplit k 2 1) n i)); [|repeat constructor].
      eapply derived_trans; [|exact H2]. repeat constructor.
    - intros w. destruct (draws0_ok w (KSplit k 2 1)) as [Lv Sv].
      destruct (initial_given dx supp F n w0 HF0' (draws0 w (KSplit k 2 1)) (KSplit k 2 1) y0 t0 Lv (fun x H => Sv x H)) as (s & Es & Fs & _).
      unfold GG, NN. rewrite Es.
      apply (drawn_map P _ (fun w' => scan w' s yts0 ks) (fun ms => Some (particles_of s ms))). apply scan_drawn.
      + unfold ks. rewrite split_keys_length, <- Hy, combine_length. lia.
      + unfold ks, split_keys. generalize (KSplit k 2 0). intros kk. generalize (length ys) at 1. intros m. generalize 0%nat. generalize (length ys). intros c.
        induction c as [|c IH]; intros a; cbn [seq map]; constructor.
        * apply Forall_forall. intros p Hp. apply in_map_iff in Hp. destruct Hp as (j & <- & Hj). apply in_seq in Hj.
          apply incomp_children. lia.
        * apply IH.
      + exact Fs.
      + apply (visited_start dx supp F thr n y0 t0 yts0 (draws0 w (KSplit k 2 1)) (KSplit k 2 1)); assumption.
  Qed.

  Corollary run_mean ys ts k G : length ys = length ts -> combine ys ts = yts0 ->
    has_mean P (fun w => of_run G (run w ys ts k))
      (filter_mean dx supp mu q F thr n y0 t0 yts0 (KSplit k 2 1) (split_keys (KSplit k 2 0) (length ys) 0 (length ys)) G).
  Proof.
    intros Ll Hy. destruct (run_drawn ys ts k Ll Hy) as [_ D]. exists (run_keys (length ys) k). specialize (D (of_run G)).
    assert (E : forall s ms, of_run G (Some (particles_of s ms)) = G s ms) by (intros s ms; unfold of_run; rewrite recorded_of; reflexivity).
    refine (eq_rect _ (mean_on P (run_keys (length ys) k) (fun w => of_run G (run w ys ts k))) D _ _).
    unfold filter_mean. apply expect_ext. intros vs _. destruct (last_marginal _) as [s|]; [|reflexivity].
    generalize (split_keys (KSplit k 2 0) (length ys) 0 (length ys)). clear -E.
    assert (H : forall yts s ks G1 G2, (forall ms, G1 ms = G2 ms) -> filter_scan_mean dx supp q F thr n s yts ks G1 = filter_scan_mean dx supp q F thr n s yts ks G2).
    { induction yts as [|[y t] yts IH]; intros s0 [|k0 ks] G1 G2 H; cbn [filter_scan_mean]; try apply H.
      unfold filter_step_mean. apply expect_ext. intros idx _. apply expect_ext. intros ys _. apply IH. intros ms. apply H. }
    intros l. apply H. intros ms. apply E.
  Qed.
End L.
