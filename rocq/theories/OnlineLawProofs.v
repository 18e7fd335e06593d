(** Proofs about the law of fixed-lag stitching. *)
From Coq Require Import Reals List Arith Bool Lia Lra.
From Verif Require Import XR Keys HmcModel WeightsSpec McmcSpec SmcModel FilterModel FilterSpec FilterProofs UnbSpec UnbProofs KexpSpec KexpProofs
  BackModel BackSpec BackProofs BackLawSpec RejLawProofs BackLawProofs OnlineModel OnlineLawSpec.
Import ListNotations.
Open Scope R_scope.

Section St.
  Context {W : Type}.
  Variable P : law W.
  Hypothesis HP : prob P.
  Variable sm : sampler W.
  Hypothesis Hsm : sampler_ok sm.
  Context {X Tm : Type}.
  Variable dx : X.
  Variable pot : X -> Tm -> X -> Tm -> xr.
  Hypothesis Hpot : forall x t x' t', potential_value (pot x t x' t').
  Variables t t1 : Tm.
  Variables xv x1 : list X.
  Variable lw : list xr.
  Variable ends : list X.
  Notation n := (length lw).
  Hypothesis Hs : stitchable dx pot t t1 xv x1 lw ends.
  Hypothesis Hcat : cat_faithful P sm (stitch_from dx pot t t1 xv x1 lw ends) n.
  Notation cat w := (fun k => s_cat sm (w k)).
  Notation cat1 w := (fun k => s_cat1 sm (w k)).
  Notation un w := (fun k => s_unif sm (w k)).
  Notation unn w := (fun k => s_unifn sm (w k)).
  Notation from a := (pot (nth a xv dx) t (nth a x1 dx) t1).
  Notation to x0 a := (pot x0 t (nth a x1 dx) t1).
  Notation free := (free_lw dx pot t t1 xv x1 lw).
  Notation tied := (tied_lw dx pot t t1 xv x1 lw).
  Notation sw := (stitch_weight dx pot t t1 xv x1 lw).
  Notation sl := (stitch_law dx pot t t1 xv x1 lw).

  Lemma nth_seq {B} (f : nat -> B) a m e : (a < m)%nat -> nth a (map f (seq 0 m)) e = f a.
  Proof. intros H. rewrite (nth_map_in _ _ a 0%nat) by (rewrite seq_length; exact H). rewrite seq_nth by exact H. reflexivity. Qed.

  Lemma free_eq : non_interacting pot xv t x1 t1 lw = free.
  Proof.
    destruct Hs as (L1 & L2 & _). apply nth_ext with (d := NInf) (d' := NInf); unfold non_interacting, free_lw.
    - rewrite !map_length, !combine_length, seq_length. lia.
    - intros a Ha. rewrite map_length, !combine_length in Ha. rewrite nth_seq by lia.
      rewrite (nth_map_in _ _ a (NInf, (dx, dx))) by (rewrite !combine_length; lia).
      rewrite !combine_nth by (rewrite ?combine_length; lia). reflexivity.
  Qed.
  Lemma tied_eq x0 : map (fun lx => xsub (fst lx) (pot x0 t (snd lx) t1)) (combine free x1) = tied x0.
  Proof.
    destruct Hs as (L1 & L2 & _). assert (LF : length free = n) by (unfold free_lw; rewrite map_length, seq_length; reflexivity).
    apply nth_ext with (d := NInf) (d' := NInf); unfold tied_lw.
    - rewrite !map_length, !combine_length, seq_length. lia.
    - intros a Ha. rewrite map_length, combine_length in Ha. rewrite nth_seq by lia.
      rewrite (nth_map_in _ _ a (NInf, dx)) by (rewrite combine_length; lia).
      rewrite combine_nth by lia. cbn [fst snd]. f_equal. unfold free_lw.
      rewrite (nth_seq (fun a => xadd (nth a lw NInf) (from a))) by lia. reflexivity.
  Qed.

  Lemma lw_cases a : (a < n)%nat -> nth a lw NInf = NInf \/ finite (nth a lw NInf).
  Proof.
    intros Ha. destruct Hs as (_ & _ & [O _] & _). rewrite Forall_forall in O. destruct (O (nth a lw NInf)) as [E|E]; [apply nth_In, Ha|auto|auto].
  Qed.
  Lemma free_weight a : (a < n)%nat -> weight (nth a free NInf) = weight (nth a lw NInf) / density (from a).
  Proof.
    intros Ha. destruct Hs as (_ & _ & _ & F & _). unfold free_lw. rewrite nth_seq by exact Ha.
    destruct (F a Ha) as [r ->]. destruct (lw_cases a Ha) as [->|[q ->]]; cbn; [lra|].
    rewrite exp_plus. unfold Rdiv. rewrite <- exp_Ropp, Ropp_involutive. reflexivity.
  Qed.
  Lemma tied_weight x0 a : (a < n)%nat -> weight (nth a (tied x0) NInf) = sw x0 a.
  Proof.
    intros Ha. destruct Hs as (_ & _ & _ & F & _). unfold tied_lw, stitch_weight. rewrite nth_seq by exact Ha.
    destruct (F a Ha) as [r ->]. destruct (Hpot x0 t (nth a x1 dx) t1) as [[p ->]| ->]; destruct (lw_cases a Ha) as [->|[q ->]]; cbn; try lra.
    replace (q + r + - p) with (q + - p + r) by ring. rewrite !exp_plus. unfold Rdiv. rewrite <- exp_Ropp, Ropp_involutive. reflexivity.
  Qed.
  Lemma free_length : length free = n.
  Proof. unfold free_lw. rewrite map_length, seq_length. reflexivity. Qed.
  Lemma tied_length x0 : length (tied x0) = n.
  Proof. unfold tied_lw. rewrite map_length, seq_length. reflexivity. Qed.
  Lemma free_finite a : (a < n)%nat -> (finite (nth a free NInf) <-> finite (nth a lw NInf)).
  Proof.
    intros Ha. destruct Hs as (_ & _ & _ & F & _). unfold free_lw. rewrite nth_seq by exact Ha.
    destruct (F a Ha) as [r ->]. destruct (lw_cases a Ha) as [->|[q ->]]; cbn; split; intros [z E]; try discriminate; eexists; reflexivity.
  Qed.
  Lemma free_ok : lw_ok free.
  Proof.
    destruct Hs as (_ & _ & [O E] & F & _). split.
    - apply Forall_forall. intros x Hx. destruct (In_nth _ _ NInf Hx) as (a & Ha & <-). rewrite free_length in Ha.
      unfold free_lw. rewrite nth_seq by exact Ha. destruct (F a Ha) as [r ->]. destruct (lw_cases a Ha) as [->|[q ->]]; cbn; [left; reflexivity|].
      right. eexists; reflexivity.
    - apply Exists_exists in E. destruct E as (x & Hx & Fx). destruct (In_nth _ _ NInf Hx) as (a & Ha & E). subst x.
      apply Exists_exists. exists (nth a free NInf). split; [apply nth_In; rewrite free_length; exact Ha|]. apply free_finite; assumption.
  Qed.
  Lemma tied_ok x0 : In x0 ends -> lw_ok (tied x0).
  Proof.
    intros Hx. destruct Hs as (_ & _ & _ & F & R). split.
    - apply Forall_forall. intros x Hy. destruct (In_nth _ _ NInf Hy) as (a & Ha & <-). rewrite tied_length in Ha.
      unfold tied_lw. rewrite nth_seq by exact Ha. destruct (F a Ha) as [r ->]. destruct (Hpot x0 t (nth a x1 dx) t1) as [[p ->]| ->];
        destruct (lw_cases a Ha) as [->|[q ->]]; cbn; auto; right; eexists; reflexivity.
    - destruct (R x0 Hx) as (a & Ha & [q Eq] & [p Ep]). apply Exists_exists. exists (nth a (tied x0) NInf).
      split; [apply nth_In; rewrite tied_length; exact Ha|]. unfold tied_lw. rewrite nth_seq by exact Ha.
      destruct (F a Ha) as [r ->]. rewrite Eq, Ep. cbn. eexists; reflexivity.
  Qed.

  Lemma tied_law x0 phi : mean (cat_law (tied x0)) phi = mean (sl x0) phi.
  Proof.
    unfold cat_law, stitch_law. cbv zeta. rewrite tied_length. f_equal. apply map_ext_in. intros a Ha. apply in_seq in Ha.
    rewrite tied_weight by lia. f_equal. f_equal. rewrite weights_seq, tied_length. f_equal.
    apply map_ext_in. intros j Hj. apply in_seq in Hj. apply tied_weight. lia.
  Qed.
  Lemma tied_draw x0 phi : In x0 ends -> mean P (fun x => phi (s_cat1 sm x (tied x0))) = mean (sl x0) phi.
  Proof.
    intros Hx. rewrite <- tied_law. apply (proj1 (Hcat (tied x0) (or_intror (ex_intro _ x0 (conj Hx eq_refl))))).
  Qed.

  (** * Without rejection *)
  Lemma full_stitch_drawn k m : forall c l, incl l ends ->
    drawn P (map (fun j => KSplit k m j) (seq c (length l)))
      (fun w => map (fun xk => full_stitch_single pot (cat1 w) (fst xk) t x1 t1 free (snd xk))
        (combine l (map (fun j => KSplit k m j) (seq c (length l)))))
      (expect (map sl l)).
  Proof.
    intros c l. revert c. induction l as [|x l IH]; intros c H.
    - apply (drawn_const P HP (@nil nat)).
    - cbn [length seq map combine fst snd].
      change (KSplit k m c :: map (fun j => KSplit k m j) (seq (S c) (length l)))
        with ([KSplit k m c] ++ map (fun j => KSplit k m j) (seq (S c) (length l))).
      apply (drawn_cons P [KSplit k m c] _
        (fun w => full_stitch_single pot (cat1 w) x t x1 t1 free (KSplit k m c))).
      + apply (drawn_law P) with (M := fun phi => mean P (fun y => phi (s_cat1 sm y (tied x)))).
        { intros phi. apply tied_draw, H. left. reflexivity. }
        unfold full_stitch_single. rewrite tied_eq.
        apply (drawn_key P HP (KSplit k m c) (fun y => s_cat1 sm y (tied x))).
      + apply IH. intros y Hy. apply H. right. exact Hy.
      + intros q [<-|[]] Hq. apply in_map_iff in Hq. destruct Hq as (j & E & Hj). apply in_seq in Hj. injection E as ->. lia.
  Qed.

  (** * With a valid bound *)
  Hypothesis Hends : length ends = n.
  Variables (b infl : R) (maxrej : nat).
  Hypothesis Hb : 0 < b.
  Hypothesis Hbound : forall x0 a, In x0 ends -> (a < n)%nat -> finite (nth a lw NInf) -> density (to x0 a) <= b.
  Hypothesis Hunif : unif_faithful P sm (stitch_ratio dx pot t t1 x1 lw ends b) n.

  Notation ok a := ((a < n)%nat /\ finite (nth a lw NInf)).

  Lemma rejection_stitch_drawn k :
    drawn P (rej_keys n maxrej k)
      (fun w => fst (rejection_stitching dx pot (cat w) (cat1 w) (un w) (unn w) ends t x1 t1 free k maxrej b infl))
      (expect (map sl ends)).
  Proof.
    destruct Hs as (L1 & L2 & O & F & R).
    assert (E : map sl ends = map (fun i => sl (nth i ends dx)) (seq 0 n)).
    { rewrite <- Hends. clear. induction ends as [|x l IH]; [reflexivity|]. cbn [length seq map nth]. f_equal. rewrite IH, <- seq_shift, map_map. reflexivity. }
    assert (Ie : forall i, (i < n)%nat -> In (nth i ends dx) ends) by (intros i Hi; apply nth_In; lia).
    rewrite E. unfold rejection_stitching. rewrite L2.
    apply (rejection_drawn P HP (fun x => s_cat1 sm x free) (fun x m => s_cat sm x free m)
      (fun i a => xexp (xopp (to (nth i ends dx) a)))
      (fun i x => s_cat1 sm x (map (fun lx => xsub (fst lx) (pot (nth i ends dx) t (snd lx) t1)) (combine free x1)))
      (s_unif sm) (s_unifn sm) infl b
      (fun i a => density (to (nth i ends dx) a)) (fun a => ok a) (cat_law free) (fun i => sl (nth i ends dx)) Hb).
    - intros i a _. destruct (Hpot (nth i ends dx) t (nth a x1 dx) t1) as [[p ->]| ->]; reflexivity.
    - intros i a Hi [Ha Fa]. apply Hbound; [apply Ie, Hi|exact Ha|exact Fa].
    - unfold prob, cat_law. rewrite map_map. cbn [snd]. pose proof (weights_pos _ free_ok).
      rewrite (Rsum_ext _ (fun i => / Rsum (weights free) * weight (nth i free NInf))) by (intros; unfold Rdiv; lra).
      rewrite Rsum_scal, <- weights_seq. field. lra.
    - intros x. destruct (proj1 (Hsm (fun _ => x)) (KRoot 0) free) as [H1 H2].
      { intros E0. pose proof free_length as L. rewrite E0 in L. destruct O as [_ O]. destruct lw; [inversion O|discriminate]. }
      rewrite free_length in H1. split; [exact H1|]. apply free_finite; [exact H1|]. apply H2, free_ok.
    - intros phi. apply (proj1 (Hcat free (or_introl eq_refl))).
    - intros x. destruct (proj1 (proj2 (Hsm (fun _ => x))) (KRoot 0) free n) as (H1 & H2 & H3).
      { intros E0. pose proof free_length as L. rewrite E0 in L. destruct O as [_ O]. destruct lw; [inversion O|discriminate]. }
      split; [exact H1|]. specialize (H3 free_ok). rewrite Forall_forall in *. intros a Ha.
      specialize (H2 a Ha). specialize (H3 a Ha). rewrite free_length in H2. split; [exact H2|]. apply free_finite; [exact H2|exact H3].
    - intros phi. apply (proj2 (Hcat free (or_introl eq_refl))).
    - intros i a phi Hi [Ha Fa]. apply (proj1 Hunif). exists (nth i ends dx), a. auto.
    - intros x. apply (proj2 (proj2 (Hsm (fun _ => x))) (KRoot 0) n).
    - intros as_ phi La Fa. apply (proj2 Hunif).
      + rewrite map_length, combine_length, seq_length. lia.
      + apply Forall_forall. intros y Hy. apply in_map_iff in Hy. destruct Hy as ([i a] & <- & Hia).
        rewrite Forall_forall in Fa. destruct (Fa a (in_combine_r _ _ _ _ Hia)) as [Ha Fa'].
        apply in_combine_l, in_seq in Hia. exists (nth i ends dx), a. cbn [fst snd]. split; [apply Ie; lia|]. auto.
    - intros i phi Hi. set (x0 := nth i ends dx).
      pose proof (weights_pos _ free_ok) as Zw. pose proof (weights_pos _ (tied_ok x0 (Ie i Hi))) as Zt.
      assert (Et : Rsum (weights (tied x0)) = Rsum (map (sw x0) (seq 0 n))).
      { rewrite weights_seq, tied_length. f_equal. apply map_ext_in. intros j Hj. apply in_seq in Hj. apply tied_weight. lia. }
      assert (E1 : forall f, mean (cat_law free) (fun a => density (to x0 a) * f a)
        = / Rsum (weights free) * Rsum (map (fun j => sw x0 j * f j) (seq 0 n))).
      { intros f. unfold mean, cat_law. rewrite map_map, <- Rsum_scal, free_length. f_equal. apply map_ext_in. intros j Hj. apply in_seq in Hj. cbn [fst snd].
        rewrite free_weight by lia. unfold stitch_weight. field.
        split; [apply Rgt_not_eq, density_pos, F; lia|lra]. }
      rewrite E1. rewrite (mean_fext (cat_law free) (fun a => density (to x0 a)) (fun a => density (to x0 a) * 1)) by (intros; lra).
      rewrite (E1 (fun _ => 1)). unfold mean, stitch_law. cbv zeta. rewrite map_map. cbn [fst snd].
      rewrite Et in Zt.
      rewrite (Rsum_ext (fun j => sw x0 j * 1) (sw x0)) by (intros; lra).
      rewrite (Rsum_ext (fun j => sw x0 j / Rsum (map (sw x0) (seq 0 n)) * phi j)
        (fun j => / Rsum (map (sw x0) (seq 0 n)) * (sw x0 j * phi j))) by (intros; unfold Rdiv; lra).
      rewrite Rsum_scal. field. lra.
    - intros i phi Hi. rewrite tied_eq. apply tied_draw, Ie, Hi.
  Qed.
End St.
