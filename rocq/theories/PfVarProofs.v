(** Proofs that the squared error of a particle filter's estimates is at most a
    constant over the number of particles. *)
From Coq Require Import Reals List Bool Arith Lia Lra.
From Verif Require Import XR Keys HmcModel WeightsModel WeightsSpec WeightsProofs SmcSpec SmcNorm SmcProps UnbSpec UnbProofs
  FilterModel FilterProofs PfSpec PfProofs KexpProofs.
Import ListNotations.
Open Scope R_scope.

(** * Second moments of weighted sums of independent terms *)
Definition var {A} (d : law A) (f : A -> R) : R := mean d (fun a => f a ^ 2) - mean d f ^ 2.
Definition nonneg {A} (d : law A) : Prop := forall ap, In ap d -> 0 <= snd ap.

Lemma mean_scal {A} (d : law A) c f : mean d (fun x => c * f x) = c * mean d f.
Proof. unfold mean. rewrite <- Rsum_scal. apply Rsum_ext. intros; lra. Qed.
Lemma mean_square {A} (d : law A) S u v h : prob d ->
  mean d (fun a => S + (u * h a + v) ^ 2) = S + u ^ 2 * var d h + (u * mean d h + v) ^ 2.
Proof.
  intros P. rewrite (mean_fext _ _ (fun a => (S + v ^ 2) + (2 * u * v * h a + u ^ 2 * h a ^ 2))) by (intros; ring).
  rewrite mean_plus, mean_const by exact P. rewrite mean_plus, !mean_scal. unfold var. ring.
Qed.
Lemma mean_mono {A} (d : law A) f g : nonneg d -> (forall x, In x (map fst d) -> f x <= g x) -> mean d f <= mean d g.
Proof.
  intros Pos H. unfold mean. induction d as [|[x p] d IH]; cbn; [lra|].
  assert (0 <= p) by (apply (Pos (x, p)); left; reflexivity).
  assert (Rsum (map (fun ap => snd ap * f (fst ap)) d) <= Rsum (map (fun ap => snd ap * g (fst ap)) d)).
  { apply IH; [intros xp Hxp; apply Pos; right; exact Hxp|]. intros y Hy. apply H. right. exact Hy. }
  pose proof (Rmult_le_compat_l p _ _ H0 (H x (or_introl eq_refl))). lra.
Qed.
Lemma expect_mono {A} (ds : list (law A)) f g : List.Forall nonneg ds ->
  (forall x, List.Forall2 (fun a d => In a (map fst d)) x ds -> f x <= g x) -> expect ds f <= expect ds g.
Proof.
  intros N. revert f g. induction N as [|d ds Nd N IH]; intros f g H; cbn.
  - apply H. constructor.
  - apply mean_mono; [exact Nd|]. intros a Ha. apply IH. intros x Hx. apply H. constructor; assumption.
Qed.
Lemma expect_plus {A} (ds : list (law A)) f g : expect ds (fun x => f x + g x) = expect ds f + expect ds g.
Proof.
  revert f g. induction ds as [|d ds IH]; intros f g; cbn; [reflexivity|].
  rewrite <- mean_plus. apply mean_fext. intros a. apply IH.
Qed.

Lemma expect_square {A B} (D : B -> law A) (h : B -> A -> R) (bs : list B) : forall ws c,
  List.Forall (fun b => prob (D b)) bs ->
  expect (map D bs) (fun ys => (dot ws (map (fun by_ => h (fst by_) (snd by_)) (combine bs ys)) + c) ^ 2)
  = dot (map (fun w => w ^ 2) ws) (map (fun b => var (D b) (h b)) bs) + (dot ws (map (fun b => mean (D b) (h b)) bs) + c) ^ 2.
Proof.
  induction bs as [|b bs IH]; intros ws c P; [destruct ws; cbn; ring|].
  inversion P as [|? ? Pb Ps]; subst.
  destruct ws as [|w ws]; cbn [map expect combine Rsum fst snd].
  - rewrite (mean_fext _ _ (fun _ => (0 + c) ^ 2)).
    + rewrite mean_const by exact Pb. ring.
    + intros a. apply expect_const. apply Forall_forall. intros d Hd. apply in_map_iff in Hd. destruct Hd as (b' & <- & Hb).
      rewrite Forall_forall in Ps. apply Ps, Hb.
  - rewrite (mean_fext _ _ (fun a => dot (map (fun w => w ^ 2) ws) (map (fun b => var (D b) (h b)) bs)
      + (w * h b a + (dot ws (map (fun b => mean (D b) (h b)) bs) + c)) ^ 2)).
    + rewrite mean_square by exact Pb. ring.
    + intros a. rewrite (expect_ext _ _ (fun ys => (dot ws (map (fun by_ => h (fst by_) (snd by_)) (combine bs ys)) + (w * h b a + c)) ^ 2)) by (intros; f_equal; ring).
      rewrite (IH ws (w * h b a + c) Ps). f_equal. f_equal. ring.
Qed.
Lemma expect_square1 {A} (ds : list (law A)) (f : A -> R) : forall ws c, List.Forall prob ds ->
  expect ds (fun x => (dot ws (map f x) + c) ^ 2)
  = dot (map (fun w => w ^ 2) ws) (map (fun d => var d f) ds) + (dot ws (map (fun d => mean d f) ds) + c) ^ 2.
Proof.
  induction ds as [|d ds IH]; intros ws c P; [destruct ws; cbn; ring|].
  inversion P as [|? ? Pb Ps]; subst.
  destruct ws as [|w ws]; cbn [map expect combine Rsum fst snd].
  - rewrite (mean_fext _ _ (fun _ => (0 + c) ^ 2)).
    + rewrite mean_const by exact Pb. ring.
    + intros a. apply expect_const. exact Ps.
  - rewrite (mean_fext _ _ (fun a => dot (map (fun w => w ^ 2) ws) (map (fun d => var d f) ds)
      + (w * f a + (dot ws (map (fun d => mean d f) ds) + c)) ^ 2)).
    + rewrite mean_square by exact Pb. ring.
    + intros a. rewrite (expect_ext _ _ (fun x => (dot ws (map f x) + (w * f a + c)) ^ 2)) by (intros; f_equal; ring).
      rewrite (IH ws (w * f a + c) Ps). f_equal. f_equal. ring.
Qed.

Lemma dot_le ws xs c : (forall w, In w ws -> 0 <= w) -> (forall x, In x xs -> x <= c) -> length ws = length xs -> dot ws xs <= Rsum ws * c.
Proof.
  revert xs. induction ws as [|w ws IH]; intros [|x xs] Hw Hx L; cbn in *; try discriminate; [lra|].
  assert (0 <= w) by (apply Hw; left; reflexivity). assert (x <= c) by (apply Hx; left; reflexivity).
  pose proof (IH xs ltac:(intros; apply Hw; right; assumption) ltac:(intros; apply Hx; right; assumption) ltac:(lia)).
  pose proof (Rmult_le_compat_l w x c H H0). lra.
Qed.
Lemma mean_bound {A} (d : law A) f K : prob d -> nonneg d -> (forall x, In x (map fst d) -> Rabs (f x) <= K) ->
  Rabs (mean d f) <= K /\ 0 <= mean d (fun x => f x ^ 2) <= K ^ 2.
Proof.
  intros P N H. split; [|split].
  - apply Rabs_le. split.
    + rewrite <- (mean_const d (- K) P). apply mean_mono; [exact N|]. intros x Hx. specialize (H x Hx). pose proof (Rle_abs (- f x)). rewrite Rabs_Ropp in H0. lra.
    + rewrite <- (mean_const d K P). apply mean_mono; [exact N|]. intros x Hx. specialize (H x Hx). pose proof (Rle_abs (f x)). lra.
  - rewrite <- (mean_const d 0 P). apply mean_mono; [exact N|]. intros x _. apply pow2_ge_0.
  - rewrite <- (mean_const d (K ^ 2) P). apply mean_mono; [exact N|]. intros x Hx. apply pow_maj_Rabs. apply H, Hx.
Qed.
Lemma var_bound {A} (d : law A) f K : prob d -> nonneg d -> (forall x, In x (map fst d) -> Rabs (f x) <= K) -> var d f <= K ^ 2.
Proof. intros P N H. destruct (mean_bound d f K P N H) as (_ & _ & U). unfold var. pose proof (pow2_ge_0 (mean d f)). lra. Qed.

Section V.
  Context {X Tm : Type}.
  Variable dx : X.
  Variable supp : list X.
  Variable mu : X -> R.
  Variable q : X -> Tm -> obs -> Tm -> X -> R.
  Variable F : pfilter X Tm.
  Variable thr : R.
  Variable n : nat.
  Variable w0 : X -> obs -> Tm -> R.
  Variable w : X -> Tm -> X -> obs -> Tm -> R.
  Hypothesis Hw0 : forall x y t, In x supp -> initial_log_weight F x y t = Fin (w0 x y t).
  Hypothesis Hw : forall x t0 x' y t, In x supp -> In x' supp -> intermediate_log_weight F x t0 x' y t = Fin (w x t0 x' y t).
  Hypothesis Hmu : Rsum (map mu supp) = 1.
  Hypothesis Hmu0 : forall x, In x supp -> 0 <= mu x.
  Hypothesis Hq : forall x t0 y t, In x supp -> Rsum (map (q x t0 y t) supp) = 1.
  Hypothesis Hq0 : forall x t0 y t x', In x supp -> In x' supp -> 0 <= q x t0 y t x'.
  Hypothesis Hn : (0 < n)%nat.
  Hypothesis Hthr : 0 < thr.
  Variable b : R.
  Hypothesis Hb0 : forall x y t, In x supp -> exp (w0 x y t) <= b.
  Hypothesis Hb : forall x t0 x' y t, In x supp -> In x' supp -> exp (w x t0 x' y t) <= b.
  Hypothesis Hbp : 0 <= b.
  Notation resamples := (resamples thr n).
  Notation fine_m := (fine_m supp n).
  Notation used := (used thr n).
  Notation Qm := (Qm supp q w).
  Notation Qms := (Qms supp q w).

  Definition sound_m (s : marginal X Tm) : Prop := fine_m s /\ m_ess s = ess_log_weight (m_lw s).
  Definition theta : R := Rmin 1 thr.
  Lemma theta_pos : 0 < theta. Proof. unfold theta. apply Rmin_glb_lt; lra. Qed.

  Lemma prop_prob x t0 y t : In x supp -> prob (prop_law supp q x t0 y t) /\ nonneg (prop_law supp q x t0 y t).
  Proof.
    intros Hx. split; [unfold prob, prop_law; rewrite map_map; apply Hq, Hx|].
    intros ap H. apply in_map_iff in H. destruct H as (x' & <- & Hx'). apply Hq0; assumption.
  Qed.
  Lemma prop_support x t0 y t x' : In x' (map fst (prop_law supp q x t0 y t)) -> In x' supp.
  Proof. unfold prop_law. rewrite map_map. cbn. rewrite map_id. auto. Qed.

  Lemma Qm_bound t0 y t psi B x : In x supp -> (forall x', In x' supp -> Rabs (psi x') <= B) -> Rabs (Qm t0 y t psi x) <= b * B.
  Proof.
    intros Hx HB. destruct (prop_prob x t0 y t Hx) as [P N]. unfold PfProofs.Qm. apply (mean_bound _ _ (b * B) P N).
    intros x' Hx'. apply prop_support in Hx'. rewrite Rabs_mult, (Rabs_right (exp _)) by (apply Rle_ge, Rlt_le, exp_pos).
    apply Rmult_le_compat; [apply Rlt_le, exp_pos|apply Rabs_pos|apply Hb; assumption|apply HB, Hx'].
  Qed.
  Lemma Qms_bound psi B yts : forall t0 x, In x supp -> (forall x', In x' supp -> Rabs (psi x') <= B) ->
    Rabs (Qms t0 yts psi x) <= b ^ length yts * B.
  Proof.
    induction yts as [|[y t] yts IH]; intros t0 x Hx HB; cbn [PfProofs.Qms length pow].
    - rewrite Rmult_1_l. apply HB, Hx.
    - rewrite Rmult_assoc. apply Qm_bound; [exact Hx|]. intros x' Hx'. apply IH; assumption.
  Qed.

  (** squared weights over the square of their sum *)
  Lemma used_square s : sound_m s ->
    Rsum (map (fun u => u ^ 2) (used s)) / Rsum (used s) ^ 2 <= / (theta * INR n).
  Proof.
    intros [Fi He]. destruct (used_sum supp thr n Hn s Fi) as (UL & US & UP). pose proof (n_pos n Hn) as Np. pose proof theta_pos as Tp.
    unfold PfProofs.used in *. destruct (resamples s) eqn:Rs.
    - rewrite map_repeat, pow1, Rsum_ones.
      replace (INR n / INR n ^ 2) with (/ INR n) by (field; lra).
      apply Rinv_le_contravar; [apply Rmult_lt_0_compat; lra|]. pose proof (Rmin_l 1 thr). unfold theta in *. nra.
    - destruct Fi as (_ & _ & a & La & Ea).
      assert (O : lw_ok (m_lw s)).
      { rewrite Ea. split.
        - apply Forall_forall. intros x Hx. apply in_map_iff in Hx. destruct Hx as (r & <- & _). right. eexists. reflexivity.
        - destruct a; [cbn in La; lia|]. apply Exists_cons_hd. eexists. reflexivity. }
      unfold PfSpec.resamples in Rs. rewrite He, (ess_kish _ O) in Rs. cbn [xltb] in Rs. apply Rltb_false in Rs.
      unfold kish in Rs. set (U := Rsum (weights (m_lw s))) in *. set (S2 := Rsum (map (fun x => x ^ 2) (weights (m_lw s)))) in *.
      assert (S2p : 0 < S2).
      { unfold S2. rewrite Ea, finite_map_weights, map_map. apply Rsum_pos; [destruct a; [cbn in La; lia|discriminate]|]. intros; apply pow_lt, exp_pos. }
      assert (U2p : 0 < U ^ 2) by (apply pow_lt, UP).
      replace (S2 / U ^ 2) with (/ (U ^ 2 / S2)) by (field; split; lra).
      apply Rinv_le_contravar; [apply Rmult_lt_0_compat; lra|].
      apply Rle_trans with (thr * INR n); [|exact Rs]. apply Rmult_le_compat_r; [lra|]. unfold theta. apply Rmin_r.
  Qed.

  Lemma step_square z psi B s y t k C c G : sound_m s -> 0 <= z -> 0 <= B -> (forall x, In x supp -> Rabs (psi x) <= B) ->
    (forall s', sound_m s' -> m_t s' = t ->
       let r := Rsum (weights (m_lw s')) / (if resamples s then INR n else Rsum (weights (m_lw s))) in
       0 <= r <= b -> G s' <= C + (value_of (z * r) psi s' + c) ^ 2) ->
    filter_step_mean dx supp q F thr n s y t k G <= C + (z * (b * B)) ^ 2 / (theta * INR n) + (value_of z (Qm (m_t s) y t psi) s + c) ^ 2.
  Proof.
    intros Sd Hz HB Hpsi HG. pose proof Sd as [Fi He]. pose proof Fi as (L1 & S1 & a & La & Ea).
    destruct (used_sum supp thr n Hn s Fi) as (UL & US & UP). pose proof (n_pos n Hn) as Np. pose proof theta_pos as Tp.
    assert (Llw : length (m_lw s) = n) by (rewrite Ea, map_length; exact La).
    assert (Ex : exists a, length a = n /\ m_lw s = map Fin a) by (exists a; auto).
    destruct (index_prob n Hn (m_lw s) Llw Ex) as [Pi Pw].
    assert (Pr : List.Forall prob (repeat (index_law (m_lw s)) n)).
    { apply Forall_forall. intros d Hd. apply repeat_spec in Hd. subst d. exact Pi. }
    assert (Ni : nonneg (index_law (m_lw s))).
    { intros ap H. apply in_map_iff in H. destruct H as (i & <- & Hi). cbn [snd]. apply in_seq in Hi.
      apply Rmult_le_pos; [|apply Rlt_le, Rinv_0_lt_compat, Pw]. rewrite Ea, (nth_map_in _ _ _ 0) by (rewrite La; lia). apply Rlt_le, exp_pos. }
    assert (Up : forall u, In u (used s) -> 0 <= u).
    { unfold PfProofs.used. destruct (resamples s); intros u Hu.
      - apply repeat_spec in Hu. lra.
      - rewrite Ea, finite_map_weights in Hu. apply in_map_iff in Hu. destruct Hu as (r & <- & _). apply Rlt_le, exp_pos. }
    set (U := Rsum (used s)) in *.
    set (h := fun x x' => z / U * (exp (w x (m_t s) x' y t) * psi x')).
    set (D := fun x => prop_law supp q x (m_t s) y t).
    set (K := z / U * (b * B)).
    assert (ZU : 0 <= z / U) by (apply Rmult_le_pos; [exact Hz|apply Rlt_le, Rinv_0_lt_compat, UP]).
    assert (HK : forall x x', In x supp -> In x' supp -> Rabs (h x x') <= K).
    { intros x x' Hx Hx'. unfold h, K. rewrite Rabs_mult, (Rabs_right (z / U)) by lra. apply Rmult_le_compat_l; [exact ZU|].
      rewrite Rabs_mult, (Rabs_right (exp _)) by (apply Rle_ge, Rlt_le, exp_pos).
      apply Rmult_le_compat; [apply Rlt_le, exp_pos|apply Rabs_pos|apply Hb; assumption|apply Hpsi, Hx']. }
    assert (HQ : forall x, mean (D x) (h x) = z / U * Qm (m_t s) y t psi x) by (intros x; unfold h, D, PfProofs.Qm; apply mean_scal).
    (* the inner expectation *)
    set (x0 := fun idx => if resamples s then map (fun i => nth i (m_value s) dx) idx else m_value s).
    apply Rle_trans with (expect (repeat (index_law (m_lw s)) n) (fun idx => C + (dot (map (fun u => u ^ 2) (used s)) (map (fun x => var (D x) (h x)) (x0 idx))
      + (dot (used s) (map (fun x => mean (D x) (h x)) (x0 idx)) + c) ^ 2))).
    { unfold filter_step_mean. apply expect_mono.
      { apply Forall_forall. intros d Hd. apply repeat_spec in Hd. subst d. exact Ni. }
      intros idx Hidx. apply support_repeat in Hidx. destruct Hidx as [Li Hi].
      assert (Fi' : List.Forall (fun i => (i < n)%nat) idx).
      { eapply Forall_impl; [|exact Hi]. cbn. intros i H. unfold index_law in H. rewrite map_map in H. cbn in H.
        rewrite map_id in H. apply in_seq in H. lia. }
      cbv zeta. fold (x0 idx). fold D.
      assert (XS : length (x0 idx) = n /\ forall x, In x (x0 idx) -> In x supp).
      { unfold x0. destruct (resamples s); [|auto]. split; [rewrite map_length; exact Li|].
        intros x Hx. apply in_map_iff in Hx. destruct Hx as (i & <- & H).
        apply S1, nth_In. rewrite Forall_forall in Fi'. rewrite L1. apply Fi', H. }
      destruct XS as [Lx Sx].
      assert (Pk : List.Forall (fun x => prob (D x)) (x0 idx)).
      { apply Forall_forall. intros x Hx. apply prop_prob, Sx, Hx. }
      apply Rle_trans with (expect (map D (x0 idx)) (fun ys => C + 1 * (dot (used s) (map (fun by_ => h (fst by_) (snd by_)) (combine (x0 idx) ys)) + c) ^ 2)).
      2:{ rewrite expect_affine.
          - rewrite (expect_square D h (x0 idx) (used s) c Pk). lra.
          - apply Forall_forall. intros d Hd. apply in_map_iff in Hd. destruct Hd as (x & <- & Hx). rewrite Forall_forall in Pk. apply Pk, Hx. }
      apply expect_mono.
      { apply Forall_forall. intros d Hd. apply in_map_iff in Hd. destruct Hd as (x & <- & Hx). apply prop_prob, Sx, Hx. }
      intros ys Hys.
      assert (L12 : length ys = length (x0 idx) /\ forall x, In x ys -> In x supp).
      { eapply (support_map _ _ (fun x => In x supp) ys); [|exact Hys]. intros x x' _ Hx. apply (prop_support x (m_t s) y t), Hx. }
      destruct L12 as [Ly Sy]. rewrite Lx in Ly.
      destruct (body_given dx supp F thr n w Hw Hn s y t k idx ys Fi Li Fi' Ly Sy) as (_ & _ & F' & V' & T' & W'). fold (x0 idx) in W'.
      set (s' := filter_body dx (indices idx) (with_proposals dx F ys) thr n s y t k) in *.
      assert (P' : 0 < Rsum (weights (m_lw s'))).
      { destruct F' as (_ & _ & a' & La' & Ea'). rewrite Ea', finite_map_weights. apply (map_exp_pos n Hn), La'. }
      assert (Rb : 0 <= Rsum (weights (m_lw s')) / U <= b).
      { split; [apply Rmult_le_pos; [lra|apply Rlt_le, Rinv_0_lt_compat, UP]|].
        apply Rmult_le_reg_r with U; [exact UP|]. replace (Rsum (weights (m_lw s')) / U * U) with (Rsum (weights (m_lw s'))) by (field; lra).
        rewrite W', Rmult_comm. apply dot_le; [exact Up| |rewrite UL, map_length, combine_length; lia].
        intros r Hr. apply in_map_iff in Hr. destruct Hr as ([x x'] & <- & Hx). cbn [fst snd].
        apply Hb; [apply in_combine_l in Hx; apply Sx, Hx|apply in_combine_r in Hx; apply Sy, Hx]. }
      assert (S' : sound_m s') by (split; [exact F'|reflexivity]).
      specialize (HG s' S' T'). cbv zeta in HG. rewrite <- US in HG. fold U in HG. specialize (HG Rb).
      eapply Rle_trans; [exact HG|]. rewrite Rmult_1_l. apply Rplus_le_compat_l. right. f_equal. f_equal.
      unfold value_of, average, weighted_mean. rewrite V'. rewrite W'. rewrite W' in P'.
      rewrite dot_assoc by (rewrite ?map_length, ?combine_length; lia).
      assert (M : map (fun wx => fst wx * snd wx) (combine (map (fun xx => exp (w (fst xx) (m_t s) (snd xx) y t)) (combine (x0 idx) ys)) (map psi ys))
        = map (fun by_ => exp (w (fst by_) (m_t s) (snd by_) y t) * psi (snd by_)) (combine (x0 idx) ys)).
      { generalize (x0 idx), Lx. clear -Ly. intros xs Lx. assert (L : length xs = length ys) by congruence. clear Lx Ly. revert ys L.
        induction xs as [|x xs IH]; intros [|x' ys] L; cbn in *; try discriminate; [reflexivity|]. rewrite IH by lia. reflexivity. }
      rewrite M.
      assert (SC : forall us xs, dot us (map (fun by_ : X * X => h (fst by_) (snd by_)) xs)
        = z / U * dot us (map (fun by_ => exp (w (fst by_) (m_t s) (snd by_) y t) * psi (snd by_)) xs)).
      { clear. induction us as [|u us IH]; intros [|x xs]; cbn; try ring. rewrite IH. unfold h. ring. }
      rewrite SC. field. split; lra. }
    (* the outer expectation *)
    unfold value_of, average. unfold x0. destruct (resamples s) eqn:Rs.
    - assert (UE : used s = repeat 1 n) by (unfold PfProofs.used; rewrite Rs; reflexivity).
      set (d := index_law (m_lw s)) in *. set (m1 := fun x => mean (D x) (h x)). set (v1 := fun x => var (D x) (h x)).
      set (f := fun i => nth i (m_value s) dx).
      rewrite (expect_ext _ _ (fun idx => C + 1 * (dot (repeat 1 n) (map (fun i => v1 (f i)) idx) + (dot (repeat 1 n) (map (fun i => m1 (f i)) idx) + c) ^ 2))).
      2:{ intros idx _. rewrite UE, map_repeat, pow1. unfold f. rewrite !map_map. fold v1 m1. ring. }
      rewrite expect_affine, expect_plus, expect_dot, expect_square1 by exact Pr.
      rewrite !map_repeat, pow1, !dot_scaled.
      assert (M1 : mean d (fun i => m1 (f i)) = z / U * weighted_mean (weights (m_lw s)) (map (Qm (m_t s) y t psi) (m_value s))).
      { unfold d, f. rewrite (mean_index dx n Hn (m_lw s) (m_value s) m1 Llw L1 Ex). unfold m1.
        rewrite (map_ext _ (fun x => z / U * Qm (m_t s) y t psi x)) by exact HQ.
        assert (SC : forall us xs, dot us (map (fun x => z / U * Qm (m_t s) y t psi x) xs) = z / U * dot us (map (Qm (m_t s) y t psi) xs)).
        { clear. induction us as [|u us IH]; intros [|x xs]; cbn; try ring. rewrite IH. ring. }
        unfold weighted_mean. rewrite SC. field. split; lra. }
      rewrite M1.
      assert (Uv : U = INR n) by (unfold U; rewrite UE; apply Rsum_ones).
      assert (TOT : mean d (fun i => v1 (f i)) + var d (fun i => m1 (f i)) <= K ^ 2).
      { unfold v1, var at 1 2. fold (m1 (f 0%nat)).
        apply Rle_trans with (mean d (fun i => mean (D (f i)) (fun x' => h (f i) x' ^ 2)) - mean d (fun i => m1 (f i)) ^ 2).
        - right. unfold var. rewrite (mean_fext d (fun i => mean (D (f i)) (fun a0 => h (f i) a0 ^ 2) - mean (D (f i)) (h (f i)) ^ 2)
            (fun i => mean (D (f i)) (fun a0 => h (f i) a0 ^ 2) + (- 1) * m1 (f i) ^ 2)) by (intros i; unfold m1; ring).
          rewrite mean_plus, mean_scal. ring.
        - assert (mean d (fun i => mean (D (f i)) (fun x' => h (f i) x' ^ 2)) <= K ^ 2); [|pose proof (pow2_ge_0 (mean d (fun i => m1 (f i)))); lra].
          rewrite <- (mean_const d (K ^ 2) Pi). apply mean_mono; [exact Ni|]. intros i Hi.
          assert (In (f i) supp).
          { unfold f. apply S1, nth_In. rewrite L1. unfold d, index_law in Hi. rewrite map_map in Hi. cbn in Hi. rewrite map_id in Hi. apply in_seq in Hi. lia. }
          destruct (prop_prob (f i) (m_t s) y t H) as [P N]. apply (mean_bound (D (f i)) (h (f i)) K P N).
          intros x' Hx'. apply HK; [exact H|]. apply (prop_support (f i) (m_t s) y t), Hx'. }
      assert (E2 : INR n * (z / U * weighted_mean (weights (m_lw s)) (map (Qm (m_t s) y t psi) (m_value s))) + c
        = z * weighted_mean (weights (m_lw s)) (map (Qm (m_t s) y t psi) (m_value s)) + c) by (rewrite Uv; field; lra).
      rewrite E2.
      assert (E3 : INR n * K ^ 2 <= (z * (b * B)) ^ 2 / (theta * INR n)).
      { unfold K. rewrite Uv. replace (INR n * (z / INR n * (b * B)) ^ 2) with ((z * (b * B)) ^ 2 * / INR n) by (field; lra).
        unfold Rdiv. apply Rmult_le_compat_l; [apply pow2_ge_0|]. apply Rinv_le_contravar; [apply Rmult_lt_0_compat; lra|].
        pose proof (Rmin_l 1 thr). unfold theta. nra. }
      pose proof (Rmult_le_compat_l (INR n) _ _ (Rlt_le _ _ Np) TOT). lra.
    - rewrite expect_const by exact Pr.
      assert (E1 : dot (used s) (map (fun x => mean (D x) (h x)) (m_value s)) = z * weighted_mean (weights (m_lw s)) (map (Qm (m_t s) y t psi) (m_value s))).
      { rewrite (map_ext _ (fun x => z / U * Qm (m_t s) y t psi x)) by exact HQ.
        assert (UW : used s = weights (m_lw s)) by (unfold PfProofs.used; rewrite Rs; reflexivity).
        assert (SC : forall us xs, dot us (map (fun x => z / U * Qm (m_t s) y t psi x) xs) = z / U * dot us (map (Qm (m_t s) y t psi) xs)).
        { clear. induction us as [|u us IH]; intros [|x xs]; cbn; try ring. rewrite IH. ring. }
        rewrite SC. unfold weighted_mean. rewrite <- UW. fold U. field. lra. }
      rewrite E1.
      assert (E2 : dot (map (fun u => u ^ 2) (used s)) (map (fun x => var (D x) (h x)) (m_value s)) <= Rsum (map (fun u => u ^ 2) (used s)) * K ^ 2).
      { apply dot_le.
        - intros u Hu. apply in_map_iff in Hu. destruct Hu as (v & <- & _). apply pow2_ge_0.
        - intros v Hv. apply in_map_iff in Hv. destruct Hv as (x & <- & Hx). destruct (prop_prob x (m_t s) y t (S1 x Hx)) as [P N].
          apply var_bound; [exact P|exact N|]. intros x' Hx'. apply HK; [apply S1, Hx|]. apply (prop_support x (m_t s) y t), Hx'.
        - rewrite !map_length, UL, L1. reflexivity. }
      pose proof (used_square s Sd) as E3. fold U in E3.
      assert (E4 : Rsum (map (fun u => u ^ 2) (used s)) * K ^ 2 <= (z * (b * B)) ^ 2 / (theta * INR n)).
      { unfold K. replace (Rsum (map (fun u => u ^ 2) (used s)) * (z / U * (b * B)) ^ 2)
          with ((z * (b * B)) ^ 2 * (Rsum (map (fun u => u ^ 2) (used s)) / U ^ 2)) by (field; lra).
        unfold Rdiv at 2. apply Rmult_le_compat_l; [apply pow2_ge_0|exact E3]. }
      lra.
  Qed.

  (** * Whole runs *)
  Lemma last_skip (s s' : marginal X Tm) ms : last (s' :: ms) s = last ms s'.
  Proof.
    destruct ms as [|m ms]; [reflexivity|]. change (last (s' :: m :: ms) s) with (last (m :: ms) s).
    revert m. induction ms as [|m2 ms IH]; intros m; [reflexivity|]. apply IH.
  Qed.
  Lemma scan_square yts : forall ks z phi B s G C c, sound_m s -> 0 <= z -> 0 <= B -> (forall x, In x supp -> Rabs (phi x) <= B) ->
    length ks = length yts ->
    (forall ms, List.Forall sound_m ms -> G ms <= C + (evidence_from thr n z s ms * average phi (last ms s) + c) ^ 2) ->
    filter_scan_mean dx supp q F thr n s yts ks G
    <= C + INR (length yts) * ((z * (b ^ length yts * B)) ^ 2 / (theta * INR n)) + (value_of z (Qms (m_t s) yts phi) s + c) ^ 2.
  Proof.
    pose proof (n_pos n Hn) as Np. pose proof theta_pos as Tp.
    induction yts as [|[y t] yts IH]; intros [|k ks] z phi B s G C c Sd Hz HB Hphi L HG; try discriminate; cbn [filter_scan_mean PfProofs.Qms].
    - cbn [length INR]. rewrite Rmult_0_l, Rplus_0_r. apply (HG []). constructor.
    - eapply Rle_trans.
      + apply (step_square z (Qms t yts phi) (b ^ length yts * B) s y t k
          (C + INR (length yts) * ((z * (b * (b ^ length yts * B))) ^ 2 / (theta * INR n))) c _ Sd Hz).
        * apply Rmult_le_pos; [apply pow_le, Hbp|exact HB].
        * intros x Hx. apply Qms_bound; assumption.
        * intros s' Sd' T' r Hr. rewrite <- T'. eapply Rle_trans.
          -- apply (IH ks (z * r) phi B s' _ C c Sd'); [apply Rmult_le_pos; [exact Hz|apply Hr]|exact HB|exact Hphi|cbn in L; lia|].
             intros ms Fm. specialize (HG (s' :: ms) ltac:(constructor; assumption)). cbn [evidence_from] in HG.
             rewrite last_skip in HG. exact HG.
          -- apply Rplus_le_compat_r, Rplus_le_compat_l. apply Rmult_le_compat_l; [apply pos_INR|].
             unfold Rdiv. apply Rmult_le_compat_r; [apply Rlt_le, Rinv_0_lt_compat, Rmult_lt_0_compat; lra|].
             assert (P0 : 0 <= b ^ length yts * B) by (apply Rmult_le_pos; [apply pow_le, Hbp|exact HB]).
             apply pow_incr. split.
             ++ apply Rmult_le_pos; [apply Rmult_le_pos; [exact Hz|apply Hr]|exact P0].
             ++ rewrite Rmult_assoc. apply Rmult_le_compat_l; [exact Hz|]. apply Rmult_le_compat_r; [exact P0|apply Hr].
      + cbn [length]. rewrite S_INR. cbn [pow]. rewrite (Rmult_assoc b (b ^ length yts) B). right. ring.
  Qed.

  Lemma filter_square y0 t0 yts k0 ks phi B G : length ks = length yts -> 0 <= B -> (forall x, In x supp -> Rabs (phi x) <= B) ->
    let target := Rsum (map (fun x => mu x * (exp (w0 x y0 t0) * Qms t0 yts phi x)) supp) in
    (forall s ms, sound_m s -> List.Forall sound_m ms -> G s ms <= (evidence thr n s ms * average phi (last ms s) - target) ^ 2) ->
    filter_mean dx supp mu q F thr n y0 t0 yts k0 ks G
    <= INR (S (length yts)) * ((b ^ S (length yts) * B) ^ 2 / (theta * INR n)).
  Proof.
    intros Lk HB Hphi target HG. unfold filter_mean. pose proof (n_pos n Hn) as Np. pose proof theta_pos as Tp.
    assert (P1 : prob (init_law supp mu)) by (unfold prob, init_law; rewrite map_map; exact Hmu).
    assert (N1 : nonneg (init_law supp mu)).
    { intros ap H. apply in_map_iff in H. destruct H as (x' & <- & Hx'). apply Hmu0, Hx'. }
    assert (Pr : List.Forall prob (repeat (init_law supp mu) n)).
    { apply Forall_forall. intros d Hd. apply repeat_spec in Hd. subst d. exact P1. }
    assert (Nr : List.Forall nonneg (repeat (init_law supp mu) n)).
    { apply Forall_forall. intros d Hd. apply repeat_spec in Hd. subst d. exact N1. }
    set (T := length yts) in *.
    set (E := INR T * ((b ^ S T * B) ^ 2 / (theta * INR n))).
    set (h := fun x => / INR n * (exp (w0 x y0 t0) * Qms t0 yts phi x)).
    assert (P0 : 0 <= b ^ T * B) by (apply Rmult_le_pos; [apply pow_le, Hbp|exact HB]).
    assert (Hs : forall x, In x (map fst (init_law supp mu)) -> In x supp).
    { unfold init_law. rewrite map_map. cbn. rewrite map_id. auto. }
    apply Rle_trans with (expect (repeat (init_law supp mu) n) (fun vs => E + 1 * (dot (repeat 1 n) (map h vs) + - target) ^ 2)).
    { apply expect_mono; [exact Nr|]. intros vs Hvs. apply support_repeat in Hvs. destruct Hvs as [Lv Hv].
      assert (Sv : forall x, In x vs -> In x supp) by (rewrite Forall_forall in Hv; intros x Hx; apply Hs, Hv, Hx).
      destruct (initial_given dx supp F n w0 Hw0 vs k0 y0 t0 Lv Sv) as (s & Es & Fs & Vs & Ts & Ws). rewrite Es.
      assert (Sd : sound_m s).
      { split; [exact Fs|]. unfold initiate_particles, last_marginal in Es.
        cbn [value FilterModel.log_weight times observed ess at_last rev app] in Es. injection Es as <-. reflexivity. }
      assert (Pw : 0 < Rsum (map (fun x => exp (w0 x y0 t0)) vs)).
      { apply Rsum_pos; [destruct vs; [cbn in Lv; lia|discriminate]|]. intros; apply exp_pos. }
      assert (Zb : 0 <= Rsum (weights (m_lw s)) / INR n <= b).
      { rewrite Ws. split; [apply Rmult_le_pos; [lra|apply Rlt_le, Rinv_0_lt_compat, Np]|].
        apply Rmult_le_reg_r with (INR n); [exact Np|]. unfold Rdiv. rewrite Rmult_assoc, Rinv_l, Rmult_1_r by lra.
        rewrite <- Lv. clear -Hb0 Sv. induction vs as [|v vs IH]; [cbn; lra|]. cbn [map Rsum length]. rewrite S_INR.
        pose proof (Hb0 v y0 t0 (Sv v (or_introl eq_refl))). pose proof (IH ltac:(intros; apply Sv; right; assumption)). lra. }
      eapply Rle_trans.
      - apply (scan_square yts ks (Rsum (weights (m_lw s)) / INR n) phi B s (G s) 0 (- target) Sd (proj1 Zb) HB Hphi Lk).
        intros ms Fm. rewrite Rplus_0_l. apply HG; assumption.
      - fold T. rewrite Rplus_0_l, Rmult_1_l. apply Rplus_le_compat.
        + unfold E. apply Rmult_le_compat_l; [apply pos_INR|]. unfold Rdiv.
          apply Rmult_le_compat_r; [apply Rlt_le, Rinv_0_lt_compat, Rmult_lt_0_compat; lra|].
          apply pow_incr. split; [apply Rmult_le_pos; [apply Zb|exact P0]|].
          replace (b ^ S T * B) with (b * (b ^ T * B)) by (cbn [pow]; ring).
          apply Rmult_le_compat_r; [exact P0|apply Zb].
        + right. f_equal. f_equal. unfold value_of, average, weighted_mean. rewrite Vs, Ts, Ws.
          assert (M : dot (repeat 1 n) (map h vs) = / INR n * dot (map (fun x => exp (w0 x y0 t0)) vs) (map (Qms t0 yts phi) vs)).
          { replace (repeat 1 n) with (repeat 1 (length vs)) by (rewrite Lv; reflexivity). clear -Np. unfold h.
            induction vs as [|v vs IH]; cbn; [ring|]. cbn in IH. rewrite IH. ring. }
          rewrite M. field. lra. }
    rewrite expect_affine by exact Pr. rewrite expect_square1 by exact Pr.
    rewrite !map_repeat, pow1, !dot_scaled.
    assert (M1 : INR n * mean (init_law supp mu) h = target).
    { unfold h. rewrite mean_scal. rewrite <- Rmult_assoc, Rinv_r, Rmult_1_l by lra. unfold mean, init_law, target. rewrite map_map. reflexivity. }
    rewrite M1.
    assert (Vb : var (init_law supp mu) h <= (/ INR n * (b * (b ^ T * B))) ^ 2).
    { apply var_bound; [exact P1|exact N1|]. intros x Hx. apply Hs in Hx. unfold h.
      rewrite Rabs_mult, (Rabs_right (/ INR n)) by (apply Rle_ge, Rlt_le, Rinv_0_lt_compat, Np).
      apply Rmult_le_compat_l; [apply Rlt_le, Rinv_0_lt_compat, Np|].
      rewrite Rabs_mult, (Rabs_right (exp _)) by (apply Rle_ge, Rlt_le, exp_pos).
      apply Rmult_le_compat; [apply Rlt_le, exp_pos|apply Rabs_pos|apply Hb0, Hx|apply Qms_bound; assumption]. }
    assert (Vn : INR n * var (init_law supp mu) h <= (b ^ S T * B) ^ 2 / (theta * INR n)).
    { eapply Rle_trans; [apply Rmult_le_compat_l; [lra|exact Vb]|]. cbn [pow].
      replace (INR n * (/ INR n * (b * (b ^ T * B)) * (/ INR n * (b * (b ^ T * B)) * 1))) with ((b * b ^ T * B) ^ 2 * / INR n) by (field; lra).
      unfold Rdiv. replace (b * b ^ T * B * (b * b ^ T * B * 1)) with ((b * b ^ T * B) ^ 2) by ring.
      apply Rmult_le_compat_l; [apply pow2_ge_0|]. apply Rinv_le_contravar; [apply Rmult_lt_0_compat; lra|].
      pose proof (Rmin_l 1 thr). unfold theta. nra. }
    unfold E. rewrite S_INR. lra.
  Qed.

  (** * Comparing and adding quantities of a run *)
  Lemma step_mono s y t k G G' : sound_m s -> (forall s', sound_m s' -> G s' <= G' s') ->
    filter_step_mean dx supp q F thr n s y t k G <= filter_step_mean dx supp q F thr n s y t k G'.
  Proof.
    intros Sd HG. pose proof Sd as [Fi He]. pose proof Fi as (L1 & S1 & a & La & Ea).
    assert (Llw : length (m_lw s) = n) by (rewrite Ea, map_length; exact La).
    assert (Ex : exists a, length a = n /\ m_lw s = map Fin a) by (exists a; auto).
    destruct (index_prob n Hn (m_lw s) Llw Ex) as [Pi Pw].
    unfold filter_step_mean. apply expect_mono.
    { apply Forall_forall. intros d Hd. apply repeat_spec in Hd. subst d.
      intros ap H. apply in_map_iff in H. destruct H as (i & <- & Hi). cbn [snd]. apply in_seq in Hi.
      apply Rmult_le_pos; [|apply Rlt_le, Rinv_0_lt_compat, Pw]. rewrite Ea, (nth_map_in _ _ _ 0) by (rewrite La; lia). apply Rlt_le, exp_pos. }
    intros idx Hidx. apply support_repeat in Hidx. destruct Hidx as [Li Hi].
    assert (Fi' : List.Forall (fun i => (i < n)%nat) idx).
    { eapply Forall_impl; [|exact Hi]. cbn. intros i H. unfold index_law in H. rewrite map_map in H. cbn in H.
      rewrite map_id in H. apply in_seq in H. lia. }
    cbv zeta. set (x0 := if resamples s then map (fun i => nth i (m_value s) dx) idx else m_value s).
    assert (XS : length x0 = n /\ forall x, In x x0 -> In x supp).
    { unfold x0. destruct (resamples s); [|auto]. split; [rewrite map_length; exact Li|].
      intros x Hx. apply in_map_iff in Hx. destruct Hx as (i & <- & H).
      apply S1, nth_In. rewrite Forall_forall in Fi'. rewrite L1. apply Fi', H. }
    destruct XS as [Lx Sx]. apply expect_mono.
    { apply Forall_forall. intros d Hd. apply in_map_iff in Hd. destruct Hd as (x & <- & Hx). apply prop_prob, Sx, Hx. }
    intros ys Hys.
    assert (L12 : length ys = length x0 /\ forall x, In x ys -> In x supp).
    { eapply (support_map _ _ (fun x => In x supp) ys); [|exact Hys]. intros x x' _ Hx. apply (prop_support x (m_t s) y t), Hx. }
    destruct L12 as [Ly Sy]. rewrite Lx in Ly.
    destruct (body_given dx supp F thr n w Hw Hn s y t k idx ys Fi Li Fi' Ly Sy) as (_ & _ & F' & _).
    apply HG. split; [exact F'|reflexivity].
  Qed.
  Lemma scan_mono yts : forall ks s G G', sound_m s -> (forall ms, List.Forall sound_m ms -> G ms <= G' ms) ->
    filter_scan_mean dx supp q F thr n s yts ks G <= filter_scan_mean dx supp q F thr n s yts ks G'.
  Proof.
    induction yts as [|[y t] yts IH]; intros [|k ks] s G G' Sd HG; cbn [filter_scan_mean]; try (apply HG; constructor).
    apply step_mono; [exact Sd|]. intros s' Sd'. apply IH; [exact Sd'|]. intros ms Fm. apply HG. constructor; assumption.
  Qed.
  Lemma filter_mono y0 t0 yts k0 ks G G' : (forall s ms, sound_m s -> List.Forall sound_m ms -> G s ms <= G' s ms) ->
    filter_mean dx supp mu q F thr n y0 t0 yts k0 ks G <= filter_mean dx supp mu q F thr n y0 t0 yts k0 ks G'.
  Proof.
    intros HG. unfold filter_mean. apply expect_mono.
    { apply Forall_forall. intros d Hd. apply repeat_spec in Hd. subst d.
      intros ap H. apply in_map_iff in H. destruct H as (x' & <- & Hx'). apply Hmu0, Hx'. }
    intros vs Hvs. apply support_repeat in Hvs. destruct Hvs as [Lv Hv].
    assert (Sv : forall x, In x vs -> In x supp).
    { rewrite Forall_forall in Hv. intros x Hx. specialize (Hv x Hx). unfold init_law in Hv. rewrite map_map in Hv. cbn in Hv. rewrite map_id in Hv. exact Hv. }
    destruct (initial_given dx supp F n w0 Hw0 vs k0 y0 t0 Lv Sv) as (s & Es & Fs & _). rewrite Es.
    assert (Sd : sound_m s).
    { split; [exact Fs|]. unfold initiate_particles, last_marginal in Es.
      cbn [value FilterModel.log_weight times observed ess at_last rev app] in Es. injection Es as <-. reflexivity. }
    apply scan_mono; [exact Sd|]. intros ms Fm. apply HG; assumption.
  Qed.
  Lemma expect_scal {A} (ds : list (law A)) c f : expect ds (fun x => c * f x) = c * expect ds f.
  Proof. revert f. induction ds as [|d ds IH]; intros f; cbn; [reflexivity|]. rewrite <- mean_scal. apply mean_fext. intros a. apply IH. Qed.
  Lemma expect_fext {A} (ds : list (law A)) f g : (forall x, f x = g x) -> expect ds f = expect ds g.
  Proof. intros H. apply expect_ext. intros x _. apply H. Qed.
  Lemma step_linear s y t k a c G G' :
    filter_step_mean dx supp q F thr n s y t k (fun s' => a * G s' + c * G' s')
    = a * filter_step_mean dx supp q F thr n s y t k G + c * filter_step_mean dx supp q F thr n s y t k G'.
  Proof.
    unfold filter_step_mean. rewrite <- !expect_scal, <- expect_plus. apply expect_fext. intros idx. cbv zeta.
    rewrite <- !expect_scal, <- expect_plus. reflexivity.
  Qed.
  Lemma step_fext s y t k G G' : (forall s', G s' = G' s') -> filter_step_mean dx supp q F thr n s y t k G = filter_step_mean dx supp q F thr n s y t k G'.
  Proof. intros H. unfold filter_step_mean. apply expect_fext. intros idx. apply expect_fext. intros ys. apply H. Qed.
  Lemma scan_linear yts : forall ks s a c G G',
    filter_scan_mean dx supp q F thr n s yts ks (fun ms => a * G ms + c * G' ms)
    = a * filter_scan_mean dx supp q F thr n s yts ks G + c * filter_scan_mean dx supp q F thr n s yts ks G'.
  Proof.
    induction yts as [|[y t] yts IH]; intros [|k ks] s a c G G'; cbn [filter_scan_mean]; try reflexivity.
    rewrite <- step_linear. apply step_fext. intros s'. apply IH.
  Qed.
  Lemma filter_linear y0 t0 yts k0 ks a c G G' :
    filter_mean dx supp mu q F thr n y0 t0 yts k0 ks (fun s ms => a * G s ms + c * G' s ms)
    = a * filter_mean dx supp mu q F thr n y0 t0 yts k0 ks G + c * filter_mean dx supp mu q F thr n y0 t0 yts k0 ks G'.
  Proof.
    unfold filter_mean. rewrite <- !expect_scal, <- expect_plus. apply expect_fext. intros vs.
    destruct (last_marginal _) as [s|]; [apply scan_linear|ring].
  Qed.

  Lemma average_bound phi B s : (forall x, In x supp -> Rabs (phi x) <= B) -> sound_m s -> Rabs (average phi s) <= B.
  Proof.
    intros Hphi [(L & S & a & La & Ea) _]. unfold average, weighted_mean. rewrite Ea, finite_map_weights.
    pose proof (map_exp_pos n Hn a La) as P.
    assert (D : Rabs (dot (map exp a) (map phi (m_value s))) <= Rsum (map exp a) * B).
    { assert (L2 : length a = length (m_value s)) by lia. clear -L2 S Hphi. revert S L2. generalize (m_value s).
      induction a as [|x a IH]; intros [|v l] S L; cbn in *; try discriminate; [rewrite Rabs_R0; lra|].
      eapply Rle_trans; [apply Rabs_triang|]. rewrite Rabs_mult, (Rabs_right (exp x)) by (apply Rle_ge, Rlt_le, exp_pos).
      pose proof (IH l ltac:(intros; apply S; right; assumption) ltac:(lia)).
      pose proof (Rmult_le_compat_l (exp x) _ _ (Rlt_le _ _ (exp_pos x)) (Hphi v (S v (or_introl eq_refl)))). lra. }
    unfold Rdiv. rewrite Rabs_mult, (Rabs_right (/ _)) by (apply Rle_ge, Rlt_le, Rinv_0_lt_compat, P).
    apply Rmult_le_reg_r with (Rsum (map exp a)); [exact P|]. rewrite Rmult_assoc, Rinv_l by lra. lra.
  Qed.
  Lemma last_sound s ms : sound_m s -> List.Forall sound_m ms -> sound_m (last ms s).
  Proof. intros H Fm. induction Fm as [|m ms H1 H2 IH]; [exact H|]. destruct ms; [exact H1|exact IH]. Qed.

  Lemma average_square y0 t0 yts k0 ks phi B : length ks = length yts -> 0 <= B -> (forall x, In x supp -> Rabs (phi x) <= B) ->
    let target := fun f => Rsum (map (fun x => mu x * (exp (w0 x y0 t0) * Qms t0 yts f x)) supp) in
    0 < target (fun _ => 1) ->
    filter_mean dx supp mu q F thr n y0 t0 yts k0 ks (fun s ms => (average phi (last ms s) - target phi / target (fun _ => 1)) ^ 2)
    <= 4 * (INR (S (length yts)) * ((b ^ S (length yts) * B) ^ 2 / (theta * INR n))) / target (fun _ => 1) ^ 2.
  Proof.
    intros Lk HB Hphi target Pos. set (g1 := target (fun _ => 1)) in *.
    pose proof (filter_square y0 t0 yts k0 ks phi B (fun s ms => (evidence thr n s ms * average phi (last ms s) - target phi) ^ 2) Lk HB Hphi
      ltac:(intros; apply Rle_refl)) as E1.
    assert (H1 : forall x, In x supp -> Rabs ((fun _ : X => 1) x) <= 1) by (intros; rewrite Rabs_R1; apply Rle_refl).
    pose proof (filter_square y0 t0 yts k0 ks (fun _ => 1) 1 (fun s ms => (evidence thr n s ms * average (fun _ => 1) (last ms s) - g1) ^ 2) Lk Rle_0_1
      H1 ltac:(intros; apply Rle_refl)) as E2.
    eapply Rle_trans.
    - apply (filter_mono y0 t0 yts k0 ks _ (fun s ms => 2 / g1 ^ 2 * (evidence thr n s ms * average phi (last ms s) - target phi) ^ 2
        + 2 * B ^ 2 / g1 ^ 2 * (evidence thr n s ms * average (fun _ => 1) (last ms s) - g1) ^ 2)).
      intros s ms Sd Fm. pose proof (average_bound phi B _ Hphi (last_sound s ms Sd Fm)) as Ab.
      rewrite (average_one supp n Hn s ms) by (first [apply Sd|eapply Forall_impl; [|exact Fm]; intros m Hm; apply Hm]).
      set (A := average phi (last ms s)) in *. set (e := evidence thr n s ms).
      replace (A - target phi / g1) with (/ g1 * ((e * A - target phi) - A * (e * 1 - g1))) by (field; lra).
      rewrite Rpow_mult_distr.
      replace (2 / g1 ^ 2 * (e * A - target phi) ^ 2 + 2 * B ^ 2 / g1 ^ 2 * (e * 1 - g1) ^ 2)
        with ((/ g1) ^ 2 * (2 * (e * A - target phi) ^ 2 + 2 * B ^ 2 * (e * 1 - g1) ^ 2)) by (field; lra).
      apply Rmult_le_compat_l; [apply pow2_ge_0|].
      assert (A2 : A ^ 2 <= B ^ 2) by (apply pow_maj_Rabs, Ab).
      set (u := e * A - target phi). set (v := e * 1 - g1). pose proof (pow2_ge_0 (u + A * v)). pose proof (pow2_ge_0 v). nra.
    - rewrite filter_linear. fold target g1 in E1, E2.
      assert (P : 0 < / g1 ^ 2) by (apply Rinv_0_lt_compat, pow_lt, Pos).
      set (K := INR (S (length yts)) * ((b ^ S (length yts) * B) ^ 2 / (theta * INR n))) in *.
      pose proof (n_pos n Hn) as Np. pose proof theta_pos as Tp.
      assert (KB : B ^ 2 * (INR (S (length yts)) * ((b ^ S (length yts) * 1) ^ 2 / (theta * INR n))) = K).
      { unfold K. field. split; lra. }
      pose proof (Rmult_le_compat_l (2 / g1 ^ 2) _ _ ltac:(unfold Rdiv; lra) E1).
      assert (Q : 0 <= 2 * B ^ 2 / g1 ^ 2) by (unfold Rdiv; apply Rmult_le_pos; [pose proof (pow2_ge_0 B); lra|lra]).
      pose proof (Rmult_le_compat_l _ _ _ Q E2).
      eapply Rle_trans; [apply Rplus_le_compat; [exact H|exact H0]|]. right.
      replace (2 * B ^ 2 / g1 ^ 2 * (INR (S (length yts)) * ((b ^ S (length yts) * 1) ^ 2 / (theta * INR n)))) with (2 / g1 ^ 2 * K).
      + field. lra.
      + rewrite <- KB. field. repeat split; lra.
  Qed.
End V.
