(** Proofs: filtering followed by backward simulation is properly weighted for the
    smoothing law. *)
From Coq Require Import Reals List Bool Arith Lia Lra.
From Verif Require Import XR Keys HmcModel WeightsModel WeightsSpec WeightsProofs McmcSpec SmcSpec SmcNorm SmcProps UnbSpec UnbProofs
  FilterModel FilterSpec FilterProofs PfSpec PfProofs KexpSpec KexpProofs RejLawProofs BackModel BackSpec BackLawSpec BackLawProofs PfLawSpec PfLawProofs FfbsSpec.
Import ListNotations.
Open Scope R_scope.

(** * Sums of expectations *)
Lemma mean_Rsum {A B} (d : law A) (f : B -> A -> R) l :
  mean d (fun a => Rsum (map (fun b => f b a) l)) = Rsum (map (fun b => mean d (f b)) l).
Proof.
  unfold mean. rewrite (Rsum_ext _ (fun ap => Rsum (map (fun b => snd ap * f b (fst ap)) l))).
  - apply Rsum_swap.
  - intros ap _. symmetry. apply Rsum_scal.
Qed.
Lemma expect_Rsum {A B} (ds : list (law A)) : forall (f : B -> list A -> R) l,
  expect ds (fun a => Rsum (map (fun b => f b a) l)) = Rsum (map (fun b => expect ds (f b)) l).
Proof.
  induction ds as [|d ds IH]; intros f l; [reflexivity|]. cbn [expect].
  rewrite (mean_fext _ _ (fun a => Rsum (map (fun b => expect ds (fun r => f b (a :: r))) l))).
  - apply mean_Rsum.
  - intros a. apply (IH (fun b r => f b (a :: r))).
Qed.
Lemma expect_scal {A} (ds : list (law A)) : forall c f, expect ds (fun a => c * f a) = c * expect ds f.
Proof.
  induction ds as [|d ds IH]; intros c f; [reflexivity|]. cbn [expect].
  rewrite (mean_fext _ _ (fun a => c * expect ds (fun r => f (a :: r)))) by (intros a; apply (IH c (fun r => f (a :: r)))). apply mean_scal.
Qed.
(** one coordinate of independent draws *)
Lemma expect_nth {A B} (D : B -> law A) (da : A) (db : B) bs : forall m f, List.Forall (fun b => prob (D b)) bs -> (m < length bs)%nat ->
  expect (map D bs) (fun l => f (nth m l da)) = mean (D (nth m bs db)) f.
Proof.
  induction bs as [|b bs IH]; intros m f P L; [cbn in L; lia|]. inversion P as [|? ? P1 P2]; subst. cbn [map expect].
  destruct m as [|m]; cbn [nth].
  - apply mean_fext. intros a. apply expect_const. apply Forall_forall. intros d Hd. apply in_map_iff in Hd.
    destruct Hd as (c & <- & Hc). rewrite Forall_forall in P2. apply P2, Hc.
  - rewrite (mean_fext _ _ (fun _ => mean (D (nth m bs db)) f)).
    + apply mean_const, P1.
    + intros a. apply (IH m f P2). cbn in L. lia.
Qed.

(** * One trajectory of backward simulation *)
Section One.
  Context {X Tm : Type}.
  Variables (dx : X) (dt : Tm) (pot : X -> Tm -> X -> Tm -> xr).
  Variables (V : list (list X)) (Wt : list (list xr)) (ts : list Tm).
  Notation blaw := (back_law dx dt pot V Wt ts).
  Notation bmean := (back_mean dx dt pot V Wt ts).

  Fixpoint back1 (s : nat) (x : X) (psi : list X -> R) : R :=
    match s with
    | O => psi [x]
    | S s' => mean (blaw s' x) (fun y => back1 s' y (fun p => psi (p ++ [x])))
    end.

  Lemma back1_ext s : forall x f g, (forall p, f p = g p) -> back1 s x f = back1 s x g.
  Proof. induction s as [|s IH]; intros x f g H; cbn; [apply H|]. apply mean_fext. intros y. apply IH. intros p. apply H. Qed.

  Lemma back_mean_ext s : forall xs f g, (forall r, f r = g r) -> bmean s xs f = bmean s xs g.
  Proof. induction s as [|s IH]; intros xs f g H; cbn; [apply H|]. apply expect_fext. intros y. apply IH. intros p. apply H. Qed.
  Lemma back_mean_Rsum {B} s : forall xs (f : B -> list (list X) -> R) l,
    bmean s xs (fun r => Rsum (map (fun b => f b r) l)) = Rsum (map (fun b => bmean s xs (f b)) l).
  Proof.
    induction s as [|s IH]; intros xs f l; cbn [back_mean]; [reflexivity|].
    rewrite (expect_fext _ _ (fun ys => Rsum (map (fun b => bmean s ys (fun rows => f b (rows ++ [xs]))) l))).
    - apply expect_Rsum.
    - intros ys. apply (IH ys (fun b rows => f b (rows ++ [xs]))).
  Qed.
  Lemma back_mean_scal s : forall xs c f, bmean s xs (fun r => c * f r) = c * bmean s xs f.
  Proof.
    induction s as [|s IH]; intros xs c f; cbn [back_mean]; [reflexivity|].
    rewrite (expect_fext _ _ (fun ys => c * bmean s ys (fun rows => f (rows ++ [xs])))).
    - apply expect_scal.
    - intros ys. apply (IH ys c (fun rows => f (rows ++ [xs]))).
  Qed.

  Variable T : nat.
  Hypothesis Hprob : forall s x, (s < T)%nat -> prob (blaw s x).

  Lemma back_mean_one s : forall xs m psi, (s <= T)%nat -> (m < length xs)%nat ->
    bmean s xs (fun rows => psi (trajectory dx rows m)) = back1 s (nth m xs dx) psi.
  Proof.
    induction s as [|s IH]; intros xs m psi Hs Hm; cbn [back_mean back1]; [reflexivity|].
    rewrite (expect_ext _ _ (fun ys => back1 s (nth m ys dx) (fun p => psi (p ++ [nth m xs dx])))).
    - apply (expect_nth (blaw s) dx dx xs m (fun y => back1 s y (fun p => psi (p ++ [nth m xs dx])))); [|exact Hm].
      apply Forall_forall. intros x _. apply Hprob. lia.
    - intros ys Hy. apply Forall2_length_eq in Hy. rewrite map_length in Hy.
      rewrite <- (IH ys m) by lia. apply back_mean_ext. intros rows. unfold trajectory. rewrite map_app. reflexivity.
  Qed.

  Hypothesis Hlast : prob (particle_law dx V Wt T).
  Lemma smoothing_one n psi : (0 < n)%nat ->
    smoothing_mean dx dt pot V Wt ts T n (trajectory_average dx n psi) = mean (particle_law dx V Wt T) (fun x => back1 T x psi).
  Proof.
    intros Hn. unfold smoothing_mean, trajectory_average.
    set (M := mean (particle_law dx V Wt T) (fun x => back1 T x psi)).
    rewrite (expect_ext _ _ (fun xs => / INR n * Rsum (map (fun m => bmean T xs (fun rows => psi (trajectory dx rows m))) (seq 0 n)))).
    2:{ intros xs _. rewrite <- back_mean_Rsum, <- back_mean_scal. apply back_mean_ext. intros rows. unfold Rdiv. apply Rmult_comm. }
    rewrite expect_scal, expect_Rsum.
    rewrite (Rsum_ext _ (fun _ => M)).
    - rewrite (Rsum_ext (fun _ => M) (fun _ => M * 1)) by (intros; lra). rewrite Rsum_scal.
      assert (E : Rsum (map (fun _ : nat => 1) (seq 0 n)) = INR n).
      { rewrite <- (seq_length n 0) at 2. generalize (seq 0 n). intros l. induction l as [|a l IH]; [reflexivity|]. cbn [map Rsum length].
        rewrite IH, S_INR. lra. }
      rewrite E. assert (0 < INR n) by (apply lt_0_INR, Hn). field. lra.
    - intros m Hm. apply in_seq in Hm.
      rewrite (expect_ext _ _ (fun xs => back1 T (nth m xs dx) psi)).
      + rewrite <- (map_id (repeat _ n)). rewrite (expect_nth (fun d : law X => d) dx (particle_law dx V Wt T) _ m (fun x => back1 T x psi)).
        * rewrite nth_repeat. reflexivity.
        * apply Forall_forall. intros d Hd. apply repeat_spec in Hd. subst d. exact Hlast.
        * rewrite repeat_length. lia.
      + intros xs Hx. apply Forall2_length_eq in Hx. rewrite repeat_length in Hx. apply back_mean_one; lia.
  Qed.
End One.

(** * Along the filter *)
Section Along.
  Context {X Tm : Type}.
  Variables (dx : X) (dt : Tm).
  Variable supp : list X.
  Variable mu : X -> R.
  Variable q : X -> Tm -> obs -> Tm -> X -> R.
  Variable F : pfilter X Tm.
  Variable thr : R.
  Variable n : nat.
  Variable w0 : X -> obs -> Tm -> R.
  Variable w : X -> Tm -> X -> obs -> Tm -> R.
  Hypothesis Hw0 : forall x y t, In x supp -> initial_log_weight F x y t = Fin (w0 x y t).
  Hypothesis Hw : forall x t0 x' y t, In x supp -> In x' supp -> intermediate_log_weight F x t0 x' y t = Fin (w x t0 x' y t).
  Hypothesis Hmu : Rsum (map mu supp) = 1.
  Hypothesis Hq : forall x t0 y t, In x supp -> Rsum (map (q x t0 y t) supp) = 1.
  Hypothesis Hn : (0 < n)%nat.
  Variable tp : X -> Tm -> X -> Tm -> R.
  Variable like : X -> obs -> Tm -> R.
  Hypothesis Hqw : forall x t0 y t x', In x supp -> In x' supp ->
    q x t0 y t x' * exp (w x t0 x' y t) = exp (- tp x t0 x' t) * like x' y t.
  Notation pot := (fun x t x' t' => Fin (tp x t x' t')).
  Notation fine := (fine_m supp n).
  Notation weight_at s i := (weight (nth i (m_lw s) NInf)).

  Definition bw (s : marginal X Tm) (t : Tm) (x : X) (i : nat) : R :=
    weight_at s i * exp (- tp (nth i (m_value s) dx) (m_t s) x t).

  (** one trajectory back from [x] through the earlier times, latest first *)
  Fixpoint bk (rh : list (marginal X Tm)) (t : Tm) (x : X) (psi : list X -> R) : R :=
    match rh with
    | [] => psi [x]
    | s :: r => Rsum (map (fun i => bw s t x i / Rsum (map (bw s t x) (seq 0 n)) * bk r (m_t s) (nth i (m_value s) dx) (fun p => psi (p ++ [x]))) (seq 0 n))
    end.

  Lemma bk_ext rh : forall t x f g, (forall p, f p = g p) -> bk rh t x f = bk rh t x g.
  Proof.
    induction rh as [|s r IH]; intros t x f g H; cbn [bk]; [apply H|]. apply Rsum_ext. intros i _. f_equal. apply IH. intros p. apply H.
  Qed.

  Lemma bk_sum {B} rh : forall t x (a : B -> R) (f : B -> list X -> R) l,
    bk rh t x (fun p => Rsum (map (fun b => a b * f b p) l)) = Rsum (map (fun b => a b * bk rh t x (f b)) l).
  Proof.
    induction rh as [|s r IH]; intros t x a f l; cbn [bk]; [reflexivity|].
    rewrite (Rsum_ext _ (fun i => Rsum (map (fun b => a b * (bw s t x i / Rsum (map (bw s t x) (seq 0 n)) * bk r (m_t s) (nth i (m_value s) dx) (fun p => f b (p ++ [x])))) l))).
    - rewrite Rsum_swap. apply Rsum_ext. intros b _. apply Rsum_scal.
    - intros i _. rewrite (IH _ _ a (fun b p => f b (p ++ [x])) l), <- Rsum_scal. apply Rsum_ext. intros b _. ring.
  Qed.

  Lemma fine_weights (s : marginal X Tm) : fine s -> length (m_lw s) = n /\ length (m_value s) = n /\ 0 < Rsum (weights (m_lw s))
    /\ (forall i, (i < n)%nat -> 0 < weight_at s i) /\ (forall x, In x (m_value s) -> In x supp)
    /\ forall i, (i < n)%nat -> finite (nth i (m_lw s) NInf).
  Proof.
    intros (L & Sv & a & La & Ea).
    assert (N : forall i, (i < n)%nat -> nth i (m_lw s) NInf = Fin (nth i a 0)).
    { intros i Hi. rewrite Ea. apply nth_map_in. lia. }
    split; [rewrite Ea, map_length; exact La|]. split; [exact L|]. split; [rewrite Ea, finite_map_weights; apply (map_exp_pos n Hn a La)|].
    split; [|split; [exact Sv|]].
    - intros i Hi. rewrite N by exact Hi. cbn. apply exp_pos.
    - intros i Hi. rewrite N by exact Hi. eexists. reflexivity.
  Qed.

  Lemma bw_pos (s : marginal X Tm) t x : fine s -> 0 < Rsum (map (bw s t x) (seq 0 n)).
  Proof.
    intros Fi. destruct (fine_weights s Fi) as (_ & _ & _ & P & _).
    apply Rsum_pos; [destruct n; [lia|discriminate]|]. intros i Hi. apply in_seq in Hi.
    unfold bw. apply Rmult_lt_0_compat; [apply P; lia|apply exp_pos].
  Qed.

  Lemma average_index phi (s : marginal X Tm) : fine s -> average phi s = Rsum (map (fun i => weight_at s i * phi (nth i (m_value s) dx)) (seq 0 n)) / Rsum (weights (m_lw s)).
  Proof.
    intros Fi. destruct (fine_weights s Fi) as (L1 & L2 & Pw & _). destruct Fi as (_ & _ & ex).
    unfold average. rewrite <- (mean_index dx n Hn (m_lw s) (m_value s) phi L1 L2 ex).
    unfold mean, index_law. rewrite map_map, L1. cbn [fst snd].
    rewrite (Rsum_ext _ (fun i => / Rsum (weights (m_lw s)) * (weight_at s i * phi (nth i (m_value s) dx)))) by (intros; unfold Rdiv; ring).
    rewrite Rsum_scal. unfold Rdiv. ring.
  Qed.
  Lemma average_ext f g (s : marginal X Tm) : (forall x, f x = g x) -> average f s = average g s.
  Proof. intros H. unfold average. f_equal. apply map_ext. exact H. Qed.

  Definition pulled (t0 : Tm) (y : obs) (t : Tm) (psi : X -> list X -> R) (x : X) (p : list X) : R :=
    Rsum (map (fun x' => exp (- tp x t0 x' t) * like x' y t * psi x' (p ++ [x'])) supp).

  Lemma average_pulled rh s y t psi : fine s ->
    average (Qm supp q w (m_t s) y t (fun x' => bk (s :: rh) t x' (psi x'))) s
    = average (fun x => bk rh (m_t s) x (pulled (m_t s) y t psi x)) s.
  Proof.
    intros Fi. destruct (fine_weights s Fi) as (L1 & L2 & Pw & Pi & Sv & _).
    rewrite !average_index by exact Fi. f_equal.
    set (xi := fun i => nth i (m_value s) dx).
    set (c := fun j x' => bk rh (m_t s) (xi j) (fun p => psi x' (p ++ [x']))).
    set (B := fun x' => Rsum (map (bw s t x') (seq 0 n))).
    assert (Sx : forall i, In i (seq 0 n) -> In (xi i) supp).
    { intros i Hi. apply in_seq in Hi. apply Sv, nth_In. lia. }
    transitivity (Rsum (map (fun x' => like x' y t * (B x' * Rsum (map (fun j => bw s t x' j / B x' * c j x') (seq 0 n)))) supp)).
    - rewrite (Rsum_ext _ (fun i => Rsum (map (fun x' => like x' y t * (bw s t x' i * Rsum (map (fun j => bw s t x' j / B x' * c j x') (seq 0 n)))) supp))).
      + rewrite Rsum_swap. apply Rsum_ext. intros x' _. rewrite Rsum_scal. f_equal.
        rewrite (Rsum_ext _ (fun i => Rsum (map (fun j => bw s t x' j / B x' * c j x') (seq 0 n)) * bw s t x' i)) by (intros; ring).
        rewrite Rsum_scal. unfold B. ring.
      + intros i Hi. unfold Qm, mean, prop_law. rewrite map_map. cbn [fst snd bk]. fold (xi i). rewrite <- Rsum_scal. apply Rsum_ext.
        intros x' Hx'. fold (B x').
        transitivity (weight_at s i * (q (xi i) (m_t s) y t x' * exp (w (xi i) (m_t s) x' y t)) * Rsum (map (fun j => bw s t x' j / B x' * c j x') (seq 0 n))); [unfold c, xi; ring|].
        rewrite Hqw; [|apply Sx, Hi|exact Hx']. unfold bw, xi. ring.
    - rewrite (Rsum_ext _ (fun x' => Rsum (map (fun j => weight_at s j * (exp (- tp (xi j) (m_t s) x' t) * like x' y t * c j x')) (seq 0 n)))).
      + rewrite Rsum_swap. apply Rsum_ext. intros j _. rewrite Rsum_scal. f_equal. symmetry.
        exact (bk_sum rh (m_t s) (xi j) (fun x' => exp (- tp (xi j) (m_t s) x' t) * like x' y t) (fun x' p => psi x' (p ++ [x'])) supp).
      + intros x' _. rewrite <- Rsum_scal, <- Rsum_scal. apply Rsum_ext. intros j _.
        pose proof (bw_pos s t x' Fi) as Pb. fold (B x') in Pb. unfold bw at 1. fold (xi j). field. lra.
  Qed.

  Fixpoint pulls (t0 : Tm) (yts : list (obs * Tm)) (psi : list X -> R) (x : X) (p : list X) : R :=
    match yts with
    | [] => psi p
    | (y, t) :: r => pulled t0 y t (pulls t r psi) x p
    end.

  (** average over one trajectory back from the last row *)
  Definition final (hist : list (marginal X Tm)) (d : marginal X Tm) (psi : list X -> R) : R :=
    average (fun x => bk (rev (removelast hist)) (m_t (last hist d)) x psi) (last hist d).

  Lemma last_cons_irrel {A} (l : list A) a d : last (l ++ [a]) d = a.
  Proof. apply last_last. Qed.

  Lemma scan_final yts : forall ks z rh s psi G, fine s -> length ks = length yts ->
    (forall ms, List.Forall fine ms -> length ms = length yts -> G ms = evidence_from thr n z s ms * final (rev rh ++ s :: ms) s psi) ->
    filter_scan_mean dx supp q F thr n s yts ks G = z * average (fun x => bk rh (m_t s) x (pulls (m_t s) yts psi x)) s.
  Proof.
    induction yts as [|[y t] yts IH]; intros [|k ks] z rh s psi G Fi L HG; try discriminate; cbn [filter_scan_mean pulls].
    - rewrite HG by (constructor || reflexivity). cbn [evidence_from]. unfold final.
      rewrite last_last, removelast_last, rev_involutive. reflexivity.
    - transitivity (z * average (Qm supp q w (m_t s) y t (fun x' => bk (s :: rh) t x' (pulls t yts psi x'))) s).
      2:{ f_equal. exact (average_pulled rh s y t (pulls t yts psi) Fi). }
      apply (step_mean_value dx supp q F thr n w Hw Hq Hn z (fun x' => bk (s :: rh) t x' (pulls t yts psi x')) s y t k); [exact Fi|].
      intros s' F' T'. unfold value_of.
      rewrite (IH ks (z * (Rsum (weights (m_lw s')) / (if resamples thr n s then INR n else Rsum (weights (m_lw s))))) (s :: rh) s' psi); [rewrite T'; reflexivity|exact F'|cbn in L; lia|].
      intros ms Fm Lm. rewrite HG by (try constructor; try assumption; cbn; lia). cbn [evidence_from]. f_equal.
      cbn [rev]. rewrite <- app_assoc. cbn [app].
      unfold final.
      assert (E : forall (a b : marginal X Tm) h, h <> [] -> last h a = last h b).
      { clear. intros a b h H. destruct h as [|x h]; [contradiction|]. clear H. revert x. induction h as [|y h IH]; intros x; [reflexivity|]. apply (IH y). }
      rewrite (E s s') by (destruct (rev rh); discriminate). reflexivity.
  Qed.

  (** a whole filter run *)
  Lemma pulls_path (lp : X -> obs -> Tm -> R) yts : (forall x y t, In x supp -> like x y t = exp (- lp x y t)) ->
    forall t psi x p, pulls t yts psi x (p ++ [x]) = path_sum tp lp supp x t yts (fun r => psi (p ++ r)).
  Proof.
    intros Hl. induction yts as [|[y t'] yts IH]; intros t psi x p; cbn [pulls path_sum]; [reflexivity|].
    unfold pulled. apply Rsum_ext. intros x' Hx'. rewrite Hl by exact Hx'. f_equal. rewrite (IH t' psi x' (p ++ [x])).
    assert (E : forall yts x t f g, (forall r, f r = g r) -> path_sum tp lp supp x t yts f = path_sum tp lp supp x t yts g).
    { clear. induction yts as [|[y t] yts IH]; intros x t0 f g H; cbn; [apply H|]. apply Rsum_ext. intros x' _. f_equal. apply IH. intros r. apply H. }
    apply E. intros r. rewrite <- app_assoc. reflexivity.
  Qed.

  Theorem filter_final (ip : X -> Tm -> R) (lp : X -> obs -> Tm -> R) y0 t0 yts k0 ks psi G :
    (forall x, In x supp -> mu x = exp (- ip x t0)) -> (forall x y t, In x supp -> like x y t = exp (- lp x y t)) ->
    (forall x, In x supp -> exp (w0 x y0 t0) = like x y0 t0) ->
    length ks = length yts ->
    (forall s ms, fine s -> List.Forall fine ms -> length ms = length yts -> G s ms = evidence thr n s ms * final (s :: ms) s psi) ->
    filter_mean dx supp mu q F thr n y0 t0 yts k0 ks G = smoothing ip tp lp supp y0 t0 yts psi.
  Proof.
    intros Hm Hl H0 Lk HG.
    set (G0 := fun (s : marginal X Tm) (ms : list (marginal X Tm)) => evidence thr n s ms * average (fun x => pulls t0 yts psi x [x]) (last ms s)).
    transitivity (filter_mean dx supp mu q F thr n y0 t0 [] k0 [] G0).
    - unfold filter_mean. apply expect_ext. intros vs Hvs. apply support_repeat in Hvs. destruct Hvs as [Lv Hv].
      assert (Sv : forall x, In x vs -> In x supp).
      { rewrite Forall_forall in Hv. intros x Hx. specialize (Hv x Hx). unfold init_law in Hv. rewrite map_map in Hv. cbn in Hv.
        rewrite map_id in Hv. exact Hv. }
      destruct (initial_given dx supp F n w0 Hw0 vs k0 y0 t0 Lv Sv) as (s & -> & Fs & Vs & Ts & Ws).
      rewrite (scan_final yts ks (Rsum (weights (m_lw s)) / INR n) [] s psi (G s) Fs Lk).
      + cbn [filter_scan_mean]. unfold G0, evidence. cbn [evidence_from last bk]. rewrite Ts. reflexivity.
      + intros ms Fm Lm. rewrite HG by assumption. reflexivity.
    - rewrite (filter_mean_value dx supp mu q F thr n w0 w Hw0 Hw Hmu Hq Hn y0 t0 [] k0 [] (fun x => pulls t0 yts psi x [x]) G0 eq_refl); [|reflexivity].
      unfold smoothing. apply Rsum_ext. intros x Hx. cbn [Qms].
      pose proof (pulls_path lp yts Hl t0 psi x []) as E. cbn [app] in E. rewrite E.
      rewrite Hm, H0, Hl by exact Hx. rewrite Rmult_assoc. reflexivity.
  Qed.

  (** the record of the filter against the simulation's *)
  Section Record.
    Variable hist : list (marginal X Tm).
    Variable d : marginal X Tm.
    Hypothesis Hf : List.Forall fine hist.
    Notation V := (map (@m_value X Tm) hist).
    Notation Wt := (map (@m_lw X Tm) hist).
    Notation ts := (map (@m_t X Tm) hist).

    Lemma row_nth s : (s < length hist)%nat -> nth s V [] = m_value (nth s hist d) /\ nth s Wt [] = m_lw (nth s hist d) /\ nth s ts dt = m_t (nth s hist d)
      /\ fine (nth s hist d).
    Proof.
      intros H. rewrite !(nth_map_in _ _ s d) by exact H. repeat (split; [reflexivity|]).
      rewrite Forall_forall in Hf. apply Hf, nth_In, H.
    Qed.

    Lemma back_law_bw s x phi : (S s < length hist)%nat ->
      mean (back_law dx dt pot V Wt ts s x) phi
      = Rsum (map (fun i => bw (nth s hist d) (m_t (nth (S s) hist d)) x i / Rsum (map (bw (nth s hist d) (m_t (nth (S s) hist d)) x) (seq 0 n))
                            * phi (nth i (m_value (nth s hist d)) dx)) (seq 0 n)).
    Proof.
      intros H. destruct (row_nth s ltac:(lia)) as (E1 & E2 & E3 & Fs). destruct (row_nth (S s) H) as (_ & _ & E4 & _).
      destruct (fine_weights _ Fs) as (_ & L & _). unfold mean, back_law, back_weight. cbv zeta. rewrite map_map, E1, E2, E3, E4, L. reflexivity.
    Qed.

    Lemma back_law_prob s x : (S s < length hist)%nat -> prob (back_law dx dt pot V Wt ts s x).
    Proof.
      intros H. destruct (row_nth s ltac:(lia)) as (_ & _ & _ & Fs).
      assert (E : Rsum (map snd (back_law dx dt pot V Wt ts s x)) = mean (back_law dx dt pot V Wt ts s x) (fun _ => 1)).
      { unfold mean. apply Rsum_ext. intros. ring. }
      unfold prob. rewrite E, back_law_bw by exact H.
      pose proof (bw_pos (nth s hist d) (m_t (nth (S s) hist d)) x Fs) as P. set (Z := Rsum (map (bw _ _ x) (seq 0 n))) in *.
      rewrite (Rsum_ext _ (fun i => / Z * bw (nth s hist d) (m_t (nth (S s) hist d)) x i)) by (intros; unfold Rdiv; ring).
      rewrite Rsum_scal. fold Z. field. lra.
    Qed.

    Lemma firstn_succ {A} (l : list A) s e : (s < length l)%nat -> firstn (S s) l = firstn s l ++ [nth s l e].
    Proof. revert s. induction l as [|a l IH]; intros [|s] H; cbn in *; try lia; [reflexivity|]. f_equal. apply IH. lia. Qed.

    Lemma back1_bk s : forall x psi, (s < length hist)%nat -> back1 dx dt pot V Wt ts s x psi = bk (rev (firstn s hist)) (m_t (nth s hist d)) x psi.
    Proof.
      induction s as [|s IH]; intros x psi H; cbn [back1]; [reflexivity|].
      rewrite (firstn_succ hist s d) by lia. rewrite rev_app_distr. cbn [rev app bk].
      rewrite back_law_bw by exact H. apply Rsum_ext. intros i _. f_equal. apply IH. lia.
    Qed.

    Lemma particle_law_average T phi : (T < length hist)%nat -> mean (particle_law dx V Wt T) phi = average phi (nth T hist d).
    Proof.
      intros H. destruct (row_nth T H) as (E1 & E2 & _ & Fs). rewrite average_index by exact Fs.
      destruct (fine_weights _ Fs) as (_ & L & _). unfold mean, particle_law. rewrite map_map, E1, E2, L. cbn [fst snd].
      rewrite (Rsum_ext _ (fun i => / Rsum (weights (m_lw (nth T hist d))) * (weight_at (nth T hist d) i * phi (nth i (m_value (nth T hist d)) dx)))) by (intros; unfold Rdiv; ring).
      rewrite Rsum_scal. unfold Rdiv. ring.
    Qed.

    Lemma record_smoothing ns psi T : (0 < ns)%nat -> length hist = S T ->
      smoothing_mean dx dt pot V Wt ts T ns (trajectory_average dx ns psi) = final hist d psi.
    Proof.
      intros Hns HT. rewrite smoothing_one.
      - rewrite particle_law_average by lia. unfold final.
        assert (E : last hist d = nth T hist d).
        { clear -HT. revert T HT. induction hist as [|a l IH]; intros T HT; [discriminate|]. destruct l as [|b l]; [injection HT as <-; reflexivity|].
          destruct T as [|T]; [discriminate|]. change (last (b :: l) d = nth T (b :: l) d). apply IH. cbn in HT |- *. lia. }
        assert (E2 : removelast hist = firstn T hist).
        { rewrite removelast_firstn_len, HT. reflexivity. }
        rewrite E, E2. apply average_ext. intros x. apply back1_bk. lia.
      - intros s x Hs. apply back_law_prob. lia.
      - assert (E : Rsum (map snd (particle_law dx V Wt T)) = mean (particle_law dx V Wt T) (fun _ => 1)).
        { unfold mean. apply Rsum_ext. intros. ring. }
        unfold prob. rewrite E, particle_law_average by lia. destruct (row_nth T ltac:(lia)) as (_ & _ & _ & Fs).
        apply (average_one supp n Hn (nth T hist d) [] Fs (Forall_nil _)).
      - exact Hns.
    Qed.

    Lemma record_rows T : length hist = S T -> filter_rows (S T) V Wt
      /\ forall s, (s < T)%nat -> reachable dx pot (nth s V []) (nth s Wt []) (nth s ts dt) (nth (S s) V []) (nth (S s) Wt []) (nth (S s) ts dt).
    Proof.
      intros HT. split.
      - split; [rewrite map_length; exact HT|]. split; [rewrite map_length; exact HT|]. intros s Hs.
        destruct (row_nth s ltac:(lia)) as (E1 & E2 & _ & Fs). destruct (fine_weights _ Fs) as (L1 & L2 & _ & _ & _ & Ff).
        rewrite E1, E2. split; [lia|]. destruct Fs as (_ & _ & a & La & Ea). rewrite Ea. split.
        + apply Forall_forall. intros z Hz. apply in_map_iff in Hz. destruct Hz as (r & <- & _). right. eexists; reflexivity.
        + apply Exists_exists. exists (nth 0 (map Fin a) NInf). split; [apply nth_In; rewrite map_length; lia|].
          rewrite (nth_map_in _ _ 0%nat 0) by lia. eexists; reflexivity.
      - intros s Hs x1 _. destruct (row_nth s ltac:(lia)) as (E1 & E2 & _ & Fs). destruct (fine_weights _ Fs) as (L1 & L2 & _ & _ & _ & Ff).
        exists (nth 0 (m_value (nth s hist d)) dx). rewrite E1, E2. split; [|eexists; reflexivity].
        exists 0%nat. split; [lia|]. split; [reflexivity|]. apply Ff. lia.
    Qed.
  End Record.
End Along.

(** * From one key *)
Section Keyed.
  Context {X Tm W : Type}.
  Variables (dx : X) (dt : Tm).
  Variable supp : list X.
  Variable P : law W.
  Hypothesis HP : prob P.
  Variable sm : sampler W.
  Hypothesis Hsm : sampler_ok sm.
  Variables (ip : X -> Tm -> R) (tp : X -> Tm -> X -> Tm -> R) (lp : X -> obs -> Tm -> R).
  Variable q : X -> Tm -> obs -> Tm -> X -> R.
  Variable thr : R.
  Variables n ns : nat.
  Variable w1 : X -> Tm -> X -> obs -> Tm -> R.
  Variable isamp : obs -> Tm -> W -> X.
  Variable psamp : X -> Tm -> obs -> Tm -> W -> X.
  Variable plw : X -> Tm -> X -> obs -> Tm -> xr.
  Notation ilw := (fun x y t => Fin (- lp x y t)).
  Notation pot := (fun x t x' t' => Fin (tp x t x' t')).
  Notation sf w := (stream_filter isamp psamp ilw plw w).
  Variable F : pfilter X Tm.
  Hypothesis HF0 : initial_log_weight F = ilw.
  Hypothesis HF1 : intermediate_log_weight F = plw.
  Hypothesis Hw : forall x t0 x' y t, In x supp -> In x' supp -> plw x t0 x' y t = Fin (w1 x t0 x' y t).
  Hypothesis Hn : (0 < n)%nat.
  Hypothesis Hns : (0 < ns)%nat.
  Hypothesis Hiin : forall y t x, In (isamp y t x) supp.
  Hypothesis Hpin : forall x t y t' z, In x supp -> In (psamp x t y t' z) supp.
  Variables (y0 : obs) (t0 : Tm) (ys : list obs) (ts : list Tm).
  Hypothesis Hl : length ys = length ts.
  Hypothesis Hil : forall phi, mean P (fun z => phi (isamp y0 t0 z)) = mean (init_law supp (fun x => exp (- ip x t0))) phi.
  Hypothesis Hpl : forall x t y t' phi, In x supp -> mean P (fun z => phi (psamp x t y t' z)) = mean (prop_law supp q x t y t') phi.
  Hypothesis Hqw : forall x t0 y t x', In x supp -> In x' supp -> q x t0 y t x' * exp (w1 x t0 x' y t) = exp (- tp x t0 x' t) * exp (- lp x' y t).
  Hypothesis Hmult : forall y t r s, visited dx supp F thr n y0 t0 (combine ys ts) ((y, t) :: r) s -> resamples thr n s = true ->
    multinomial_draws n P (s_cat sm) (m_lw s).
  Variables (maxrej : nat) (b infl : R).
  Notation run w k := (run_particle_filter dx (fun kk => s_cat sm (w kk)) (sf w) n (y0 :: ys) (t0 :: ts) k thr).
  Notation sim w p k := (backward_simulation dx pot (fun kk => s_cat sm (w kk)) (fun kk => s_cat1 sm (w kk))
    (fun kk => s_unif sm (w kk)) (fun kk => s_unifn sm (w kk)) dt (value p) (log_weight p) (times p) k (Some ns) maxrej b infl).
  Variable k : key.
  Hypothesis Hback : forall w p, run w (KSplit k 2 0) = Some p ->
    cat_faithful P sm (drawn_from dx dt pot (value p) (log_weight p) (times p) (length ys)) ns
    /\ ((0 < maxrej)%nat -> unif_faithful P sm (ratio dx dt pot (value p) (log_weight p) (times p) (length ys) b) ns).
  Hypothesis Hb : (0 < maxrej)%nat -> 0 < b /\ forall x t x' t', In x supp -> In x' supp -> exp (- tp x t x' t') <= b.

  Lemma cat_length x lw : length lw = n -> length (s_cat sm x lw n) = n /\ List.Forall (fun i => (i < n)%nat) (s_cat sm x lw n).
  Proof.
    intros L. destruct (Hsm (fun _ => x)) as (_ & N & _). destruct (N (KRoot 0) lw n) as (N1 & N2 & _).
    { intros C. rewrite C in L. cbn in L. lia. }
    rewrite L in N2. split; assumption.
  Qed.

  Definition back_keys (kb : key) : list key :=
    sim_keys (if Nat.ltb 0 maxrej then rej_keys ns maxrej else full_keys ns) (length ys) kb.
  Lemma back_keys_derived kb p : In p (back_keys kb) -> derived kb p.
  Proof.
    intros H. apply in_app_or in H. destruct H as [[<-|[]]|H]; [constructor; constructor|].
    apply in_flat_map in H. destruct H as (j & _ & H). apply derived_trans with (KSplit kb (S (length ys)) j); [constructor; constructor|].
    destruct (Nat.ltb 0 maxrej); [exact (rej_keys_derived _ _ _ _ H)|].
    apply in_map_iff in H. destruct H as (i & <- & _). constructor. constructor.
  Qed.

  Lemma sim_drawn w s ms : run w (KSplit k 2 0) = Some (particles_of s ms) -> fine_m supp n s -> List.Forall (fine_m supp n) ms -> length ms = length ys ->
    forall kb, drawn P (back_keys kb) (fun w' => option_map fst (sim w' (particles_of s ms) kb))
      (fun phi => smoothing_mean dx dt pot (value (particles_of s ms)) (log_weight (particles_of s ms)) (times (particles_of s ms)) (length ys) ns
                    (fun rows => phi (Some rows))).
  Proof.
    intros Er Fs Fm Lm kb. destruct (Hback w _ Er) as [Hc Hu].
    destruct (record_rows dx dt supp n Hn tp (s :: ms) s (Forall_cons _ Fs Fm) (length ys) ltac:(cbn; lia)) as [Rr Re].
    assert (Hp : forall x t x' t', potential_value (pot x t x' t')) by (intros; left; eexists; reflexivity).
    unfold back_keys, backward_simulation. destruct (Nat.ltb 0 maxrej) eqn:E.
    - apply Nat.ltb_lt in E. destruct (Hb E) as [Pb Bb].
      apply (rejection_sim_drawn P HP sm Hsm dx dt pot Hp (value (particles_of s ms)) (log_weight (particles_of s ms)) (times (particles_of s ms)) (length ys) ns
        Rr Re Hc b infl maxrej Pb); [|exact (Hu E)].
      assert (S0 : forall j x, (j < length (s :: ms))%nat -> weighted_particle dx (nth j (value (particles_of s ms)) []) (nth j (log_weight (particles_of s ms)) []) x -> In x supp).
      { intros j x Hj (i & Hi & -> & _). unfold particles_of in *. cbn [value] in *.
        rewrite (nth_map_in _ _ j s) in Hi |- * by exact Hj.
        assert (Fj : fine_m supp n (nth j (s :: ms) s)).
        { pose proof (Forall_cons s Fs Fm) as FF. rewrite Forall_forall in FF. apply FF, nth_In, Hj. }
        destruct Fj as (_ & Sv & _). apply Sv, nth_In, Hi. }
      intros j x0 x1 Hj H0 H1. apply Bb; [apply (S0 j)|apply (S0 (S j))]; try assumption; cbn [length]; lia.
    - exact (full_sim_drawn P HP sm Hsm dx dt pot Hp (value (particles_of s ms)) (log_weight (particles_of s ms)) (times (particles_of s ms)) (length ys) ns
        Rr Re Hc kb).
  Qed.

  Theorem ffbs_mean psi :
    has_mean P (fun w =>
      match run w (KSplit k 2 0), ffbs dx dt pot (fun kk => s_cat sm (w kk)) (fun kk => s_cat1 sm (w kk)) (fun kk => s_unif sm (w kk)) (fun kk => s_unifn sm (w kk))
              (sf w) (y0 :: ys) (t0 :: ts) ns k (Some n) thr maxrej b infl with
      | Some p, Some (rows, _) => of_run (evidence thr n) (Some p) * trajectory_average dx ns psi rows
      | _, _ => 0
      end)
      (smoothing ip tp lp supp y0 t0 (combine ys ts) psi).
  Proof.
    set (mu := fun x => exp (- ip x t0)).
    set (obsv := fun (pr : option (particles X Tm) * option (list (list X))) =>
      match pr with (Some p, Some rows) => of_run (evidence thr n) (Some p) * trajectory_average dx ns psi rows | _ => 0 end).
    set (a := fun w => run w (KSplit k 2 0)).
    set (G := fun (o : option (particles X Tm)) w => (o, match o with Some p => option_map fst (sim w p (KSplit k 2 1)) | None => None end)).
    set (N := fun (o : option (particles X Tm)) (phi : option (particles X Tm) * option (list (list X)) -> R) =>
      match o with
      | Some p => smoothing_mean dx dt pot (value p) (log_weight p) (times p) (length ys) ns (fun rows => phi (o, Some rows))
      | None => phi (None, None)
      end).
    assert (Hw0 : forall x y t, In x supp -> ilw x y t = Fin (- lp x y t)) by reflexivity.
    pose proof (run_drawn dx supp P HP mu q thr n (fun x y t => - lp x y t) w1 isamp psamp (s_cat sm) ilw plw F HF0 HF1
      Hw0 Hw Hn cat_length Hiin Hpin y0 t0 (combine ys ts) Hil Hpl Hmult ys ts (KSplit k 2 0) Hl eq_refl) as DA. fold a in DA.
    assert (OUT : forall w, exists s ms, a w = Some (particles_of s ms) /\ fine_m supp n s /\ List.Forall (fine_m supp n) ms /\ length ms = length ys).
    { intros w. exact (run_output dx supp thr n (fun x y t => - lp x y t) w1 isamp psamp (s_cat sm) ilw plw F HF0 HF1
        Hw0 Hw Hn cat_length Hiin Hpin y0 t0 (combine ys ts) w ys ts (KSplit k 2 0) Hl eq_refl). }
    pose proof (drawn_bind P _ (back_keys (KSplit k 2 1)) a G _ N DA) as DB.
    destruct DB as [_ DB].
    - intros p H1 H2. apply run_keys_derived in H1. apply back_keys_derived in H2.
      exact (incomp_children k 2 0 2 1 ltac:(lia) p H1 H2).
    - intros w. destruct (OUT w) as (s & ms & Ea & Fs & Fm & Lm). rewrite Ea. unfold G, N.
      exact (drawn_map P _ _ (fun r => (Some (particles_of s ms), r)) _ (sim_drawn w s ms Ea Fs Fm Lm (KSplit k 2 1))).
    - specialize (DB obsv). cbv beta in DB. eexists. eapply mean_on_ext; [|refine (eq_rect _ (mean_on P _ _) DB _ _)].
      + intros w. unfold obsv, G, a, ffbs. destruct (run w (KSplit k 2 0)) as [p|]; [|reflexivity].
        destruct (sim w p (KSplit k 2 1)) as [[rows c]|]; reflexivity.
      + apply (filter_final dx supp mu q F thr n (fun x y t => - lp x y t) w1) with (like := fun x y t => exp (- lp x y t)); try reflexivity; try assumption.
        * intros x y t Hx. rewrite HF0. reflexivity.
        * intros x t x' y t' H H'. rewrite HF1. apply Hw; assumption.
        * transitivity (mean (init_law supp mu) (fun _ => 1)).
          { unfold mean, init_law. rewrite map_map. apply Rsum_ext. intros; cbn; ring. }
          transitivity (mean P (fun _ => 1)); [symmetry; exact (Hil (fun _ => 1))|apply mean_const, HP].
        * intros x t y t' Hx. transitivity (mean (prop_law supp q x t y t') (fun _ => 1)).
          { unfold mean, prop_law. rewrite map_map. apply Rsum_ext. intros; cbn; ring. }
          transitivity (mean P (fun _ => 1)); [symmetry; exact (Hpl x t y t' (fun _ => 1) Hx)|apply mean_const, HP].
        * rewrite split_keys_length, combine_length. lia.
        * intros s ms Fs Fm Lm. assert (Lm' : length ms = length ys) by (rewrite Lm, combine_length; lia).
          unfold N, obsv. unfold of_run. rewrite recorded_of. unfold smoothing_mean.
          rewrite <- (record_smoothing dx dt supp n Hn tp (s :: ms) s (Forall_cons _ Fs Fm) ns psi (length ys) Hns ltac:(cbn; lia)).
          unfold smoothing_mean. rewrite <- expect_scal. apply expect_ext. intros xs _.
          apply (back_mean_scal dx dt pot (value (particles_of s ms)) (log_weight (particles_of s ms)) (times (particles_of s ms))).
  Qed.
End Keyed.
