(** Proofs: the rejection loop of backward.py with a valid bound draws from the
    exact conditional law, for all targets jointly. *)
From Coq Require Import Reals List Arith Bool Lia Lra Permutation FunctionalExtensionality.
From Verif Require Import XR Keys HmcModel WeightsSpec SmcModel FilterModel UnbSpec UnbProofs KexpSpec KexpProofs
  BackModel BackSpec BackProofs BackLawSpec.
Import ListNotations.
Open Scope R_scope.

(** * Keys *)
Definition incomp (k1 k2 : key) : Prop := forall k, derived k1 k -> derived k2 k -> False.

Lemma derived_trans k1 k2 k3 : derived k1 k2 -> derived k2 k3 -> derived k1 k3.
Proof. intros H. induction 1; [exact H|]. constructor. assumption. Qed.

Fixpoint ksize (k : key) : nat := match k with KRoot _ => 0 | KSplit k _ _ => S (ksize k) end.
Lemma derived_size k1 k2 : derived k1 k2 -> (ksize k1 <= ksize k2)%nat.
Proof. induction 1; cbn; lia. Qed.

Lemma derived_split_inv k n i m j : derived (KSplit k n i) (KSplit k m j) -> n = m /\ i = j.
Proof.
  intros H. inversion H as [|q n' i' H' E]; subst; [split; reflexivity|].
  apply derived_size in H'. cbn in H'. lia.
Qed.

Lemma derived_linear k1 k2 k : derived k1 k -> derived k2 k -> derived k1 k2 \/ derived k2 k1.
Proof.
  intros H1. induction H1 as [|q n i H1 IH]; intros H2; [right; exact H2|].
  inversion H2 as [|q' n' i' H']; subst; [left; constructor; exact H1|]. apply IH, H'.
Qed.

Lemma incomp_children k n i m j : n <> m \/ i <> j -> incomp (KSplit k n i) (KSplit k m j).
Proof.
  intros N q H1 H2. destruct (derived_linear _ _ _ H1 H2) as [H|H]; apply derived_split_inv in H; lia.
Qed.
Lemma incomp_sub k1 k2 k1' k2' : incomp k1 k2 -> derived k1 k1' -> derived k2 k2' -> incomp k1' k2'.
Proof. intros H H1 H2 q D1 D2. apply (H q); eapply derived_trans; eassumption. Qed.
Lemma incomp_sym k1 k2 : incomp k1 k2 -> incomp k2 k1.
Proof. intros H k H1 H2. apply (H k); assumption. Qed.

Lemma combine_pairs (l1 : list bool) l3 : ForallOrdPairs incomp l3 -> forall p q,
  In p (combine l1 l3) -> In q (combine l1 l3) -> p = q \/ incomp (snd p) (snd q).
Proof.
  intros F. revert l1. induction F as [|k l3 H F IH]; intros [|b l1] p q Hp Hq; cbn in *; try contradiction.
  rewrite Forall_forall in H. destruct p as [bp kp], q as [bq kq].
  destruct Hp as [Ep|Hp], Hq as [Eq|Hq].
  - left. congruence.
  - right. inversion Ep; subst. cbn. apply H. apply (in_combine_r _ _ _ _ Hq).
  - right. inversion Eq; subst. cbn. apply incomp_sym, H. apply (in_combine_r _ _ _ _ Hp).
  - apply (IH l1); assumption.
Qed.

Definition cc (f : bool -> key -> list key) (l1 : list bool) (l3 : list key) : list key :=
  flat_map (fun p => f (fst p) (snd p)) (combine l1 l3).

Lemma cc_disjoint f g l1 l3 : ForallOrdPairs incomp l3 ->
  (forall b k x, In x (f b k) -> derived k x) -> (forall b k x, In x (g b k) -> derived k x) ->
  (forall b k x, In x (f b k) -> In x (g b k) -> False) ->
  forall x, In x (cc f l1 l3) -> In x (cc g l1 l3) -> False.
Proof.
  intros F Hf Hg D x Hx Hy. unfold cc in *. apply in_flat_map in Hx, Hy.
  destruct Hx as (p & Hp & Hx), Hy as (q & Hq & Hy).
  destruct (combine_pairs _ _ F p q Hp Hq) as [->|I].
  - apply (D _ _ _ Hx Hy).
  - apply (I x); [apply (Hf _ _ _ Hx)|apply (Hg _ _ _ Hy)].
Qed.

Lemma cc_head f b l1 k l3 : cc f (b :: l1) (k :: l3) = f b k ++ cc f l1 l3.
Proof. reflexivity. Qed.
Lemma cc_head_disjoint f g (b : bool) k l1 l3 : Forall (incomp k) l3 ->
  (forall (b : bool) k x, In x (f b k) -> derived k x) -> (forall b k x, In x (g b k) -> derived k x) ->
  forall x, In x (f b k) -> In x (cc g l1 l3) -> False.
Proof.
  intros F Hf Hg x Hx Hy. unfold cc in Hy. apply in_flat_map in Hy. destruct Hy as ([bq kq] & Hq & Hy).
  rewrite Forall_forall in F. apply (F kq (in_combine_r _ _ _ _ Hq) x); [apply (Hf _ _ _ Hx)|apply (Hg _ _ _ Hy)].
Qed.

(** * Laws *)
Lemma expect_mean_swap {A B} (ds : list (law A)) (d : law B) f :
  expect ds (fun l => mean d (fun b => f l b)) = mean d (fun b => expect ds (fun l => f l b)).
Proof.
  revert f. induction ds as [|e ds IH]; intros f; cbn; [reflexivity|].
  rewrite (mean_fext _ _ (fun a => mean d (fun b => expect ds (fun l => f (a :: l) b)))) by (intros; apply IH).
  apply mean_swap.
Qed.
Lemma expect_fext {A} (ds : list (law A)) f g : (forall l, f l = g l) -> expect ds f = expect ds g.
Proof. intros H. apply expect_ext. intros; apply H. Qed.

Lemma mean_bern q phi : mean (bern q) phi = q * phi false + (1 - q) * phi true.
Proof. unfold mean, bern. cbn. lra. Qed.
Definition point {A} (a : A) : law A := [(a, 1)].
Lemma mean_point {A} (a : A) phi : mean (point a) phi = phi a.
Proof. unfold mean, point. cbn. lra. Qed.

Lemma mean_scal {A} (d : law A) c f : mean d (fun x => c * f x) = c * mean d f.
Proof. unfold mean. rewrite <- Rsum_scal. apply Rsum_ext. intros; lra. Qed.

Lemma xmaxl_le b l : List.Forall (fun x => exists r, x = Fin r /\ r <= b) l -> xltb (Fin b) (xmaxl l) = false.
Proof.
  intros H. assert (E : xmaxl l = NInf \/ exists r, xmaxl l = Fin r /\ r <= b).
  { induction H as [|x l (r & -> & Hr) F IH]; [left; reflexivity|]. right.
    change (xmaxl (Fin r :: l)) with (xmax2 (Fin r) (xmaxl l)).
    destruct IH as [->|(r' & -> & Hr')]; cbn; [exists r; auto|].
    destruct (Rltb r r'); [exists r'|exists r]; auto. }
  destruct E as [->|(r & -> & Hr)]; cbn; [reflexivity|]. apply Rltb_false. exact Hr.
Qed.

Section Rej.
  Context {W A : Type}.
  Variable P : law W.
  Hypothesis HP : prob P.
  Variable pk : W -> A.
  Variable pkn : W -> nat -> list A.
  Variable dens : nat -> A -> xr.
  Variable fl : nat -> W -> A.
  Variable un : W -> R.
  Variable unn : W -> nat -> list R.
  Variable infl b : R.
  Variable d : nat -> A -> R.
  Variable S : A -> Prop.
  Variable cand : law A.
  Variable ex : nat -> law A.
  Hypothesis Hb : 0 < b.
  Hypothesis Hdens : forall i a, S a -> dens i a = Fin (d i a).
  Variable n : nat.
  Hypothesis Hd : forall i a, (i < n)%nat -> S a -> d i a <= b.
  Hypothesis Hcand : prob cand.
  Hypothesis Hpk : forall x, S (pk x).
  Hypothesis Lpk : forall phi, mean P (fun x => phi (pk x)) = mean cand phi.
  Hypothesis Hpkn : forall x, length (pkn x n) = n /\ List.Forall S (pkn x n).
  Hypothesis Lpkn : forall phi, mean P (fun x => phi (pkn x n)) = expect (repeat cand n) phi.
  Hypothesis Lun : forall i a phi, (i < n)%nat -> S a -> mean P (fun x => phi (Rltb (d i a / b) (un x))) = mean (bern (d i a / b)) phi.
  Hypothesis Hunn : forall x, length (unn x n) = n.
  Hypothesis Lunn : forall as_ phi, length as_ = n -> List.Forall S as_ ->
    let qs := map (fun ia => d (fst ia) (snd ia) / b) (combine (seq 0 n) as_) in
    mean P (fun x => phi (map (fun qu => Rltb (fst qu) (snd qu)) (combine qs (unn x n)))) = expect (map bern qs) phi.
  Hypothesis Lex : forall i phi, (i < n)%nat -> mean cand (d i) * mean (ex i) phi = mean cand (fun a => d i a * phi a).
  Hypothesis Lfl : forall i phi, (i < n)%nat -> mean P (fun x => phi (fl i x)) = mean (ex i) phi.

  Notation kw := (key -> W).
  Notation pc w := (proposal_cond (fun k => pk (w k)) dens (fun k => un (w k)) (Fin b)).
  Notation tup := (A * xr * bool * key)%type.

  (** the law of the final value of a target *)
  Definition tl (i : nat) (nya : bool) (a : A) : law A := if nya then ex i else point a.
  Fixpoint laws (i : nat) (l1 : list bool) (l2 : list A) : list (law A) :=
    match l1, l2 with
    | nya :: l1', a :: l2' => tl i nya a :: laws (Datatypes.S i) l1' l2'
    | _, _ => []
    end.

  (** the law of one target's round *)
  Definition tlaw (i : nat) (nya : bool) (a : A) (k : key) : law tup :=
    if nya then
      flat_map (fun ap => [((fst ap, Fin (d i (fst ap)), false, KSplit k 3 0), snd ap * (d i (fst ap) / b));
                           ((fst ap, Fin (d i (fst ap)), true, KSplit k 3 0), snd ap * (1 - d i (fst ap) / b))]) cand
    else point (a, Fin 0, false, k).
  Fixpoint tlaws (i : nat) (l1 : list bool) (l2 : list A) (l3 : list key) : list (law tup) :=
    match l1, l2, l3 with
    | nya :: l1', a :: l2', k :: l3' => tlaw i nya a k :: tlaws (Datatypes.S i) l1' l2' l3'
    | _, _, _ => []
    end.

  Lemma mean_tlaw i a k phi : mean (tlaw i true a k) phi
    = mean cand (fun a' => mean (bern (d i a' / b)) (fun r => phi (a', Fin (d i a'), r, KSplit k 3 0))).
  Proof.
    unfold tlaw. clear. induction cand as [|[a' p] c IH]; [reflexivity|].
    unfold mean in *. cbn in *. rewrite IH. lra.
  Qed.

  (** * A round *)
  Definition fk (nya : bool) (k : key) : list key := if nya then [KSplit k 3 1; KSplit k 3 2] else [].

  Lemma target_drawn i nya a k : (i < n)%nat -> drawn P (fk nya k) (fun w => pc w i nya a k) (mean (tlaw i nya a k)).
  Proof.
    intros Hi. destruct nya; cbn [fk].
    - apply (drawn_law P) with (M := fun phi => mean cand (fun a' => mean (bern (d i a' / b)) (fun r => phi (a', Fin (d i a'), r, KSplit k 3 0)))).
      { intros phi. symmetry. apply mean_tlaw. }
      change ([KSplit k 3 1; KSplit k 3 2]) with ([KSplit k 3 1] ++ [KSplit k 3 2]).
      pose proof (drawn_bind P [KSplit k 3 1] [KSplit k 3 2] (fun w => pk (w (KSplit k 3 1)))
        (fun a' w => (a', dens i a', xltb (xquot (dens i a') (Fin b)) (Fin (un (w (KSplit k 3 2)))), KSplit k 3 0))
        (mean cand) (fun a' phi => mean (bern (d i a' / b)) (fun r => phi (a', Fin (d i a'), r, KSplit k 3 0)))) as H.
      cbv beta in H. apply H; clear H.
      + apply (drawn_law P) with (M := fun phi => mean P (fun x => phi (pk x))); [exact Lpk|]. apply (drawn_key P HP).
      + intros q [<-|[]] [E|[]]. congruence.
      + intros w. set (a' := pk (w (KSplit k 3 1))).
        assert (Sa : S a') by apply Hpk. clearbody a'.
        apply (drawn_law P) with (M := fun phi => mean P (fun x => phi (a', Fin (d i a'), Rltb (d i a' / b) (un x), KSplit k 3 0))).
        { intros phi. apply (Lun i a' (fun r => phi (a', Fin (d i a'), r, KSplit k 3 0)) Hi Sa). }
        apply (drawn_ext P) with (a := fun w => (a', Fin (d i a'), Rltb (d i a' / b) (un (w (KSplit k 3 2))), KSplit k 3 0)).
        { intros w'. rewrite (Hdens i a' Sa). cbn. destruct (Req_EM_T b 0) as [E|_]; [lra|]. reflexivity. }
        apply (drawn_key P HP (KSplit k 3 2) (fun x => (a', Fin (d i a'), Rltb (d i a' / b) (un x), KSplit k 3 0))).
    - apply (drawn_law P) with (M := fun phi => phi (a, Fin 0, false, k)); [intros; symmetry; apply mean_point|].
      apply (drawn_const P HP (a, Fin 0, false, k)).
  Qed.

  Lemma fk_derived nya k x : In x (fk nya k) -> derived k x.
  Proof. destruct nya; cbn; [|contradiction]. intros [<-|[<-|[]]]; constructor; constructor. Qed.

  Lemma round_drawn l1 : forall i l2 l3, length l2 = length l1 -> length l3 = length l1 -> (i + length l1 <= n)%nat -> ForallOrdPairs incomp l3 ->
    drawn P (cc fk l1 l3) (fun w => map4 (pc w) i l1 l2 l3) (expect (tlaws i l1 l2 l3)).
  Proof.
    induction l1 as [|nya l1 IH]; intros i [|a l2] [|k l3] L2 L3 Hi F; try discriminate.
    - apply (drawn_const P HP (@nil tup)).
    - rewrite cc_head. cbn [map4 tlaws]. inversion F as [|? ? F1 F2]; subst. cbn in L2, L3, Hi.
      apply (drawn_cons P); [apply target_drawn; lia| |].
      + apply IH; [| | |exact F2]; lia.
      + apply cc_head_disjoint; [exact F1|exact fk_derived|exact fk_derived].
  Qed.

  (** a round does not change the law of the final values *)
  Lemma target_balance i nya a k g : (i < n)%nat ->
    mean (tlaw i nya a k) (fun t => mean (tl i (snd (fst t)) (fst (fst (fst t)))) g) = mean (tl i nya a) g.
  Proof.
    intros Hi. destruct nya.
    - rewrite mean_tlaw. cbn [tl fst snd].
      rewrite (mean_fext _ _ (fun a' => mean (ex i) g + / b * (d i a' * g a' - mean (ex i) g * d i a'))).
      + rewrite (mean_affine _ _ _ _ Hcand).
        rewrite (mean_fext cand _ (fun a' => d i a' * g a' + (- mean (ex i) g) * d i a')) by (intros; lra).
        rewrite mean_plus, mean_scal, <- (Lex i g Hi).
        change (mean cand (fun x => d i x)) with (mean cand (d i)). cbn [tl]. ring.
      + intros a'. rewrite mean_bern. cbn [tl fst snd]. rewrite mean_point. field. lra.
    - unfold tlaw. rewrite mean_point. reflexivity.
  Qed.

  Lemma round_balance l1 : forall i l2 l3 phi, length l2 = length l1 -> length l3 = length l1 -> (i + length l1 <= n)%nat ->
    expect (tlaws i l1 l2 l3) (fun t => expect (laws i (map (fun x => snd (fst x)) t) (map (fun x => fst (fst (fst x))) t)) phi)
    = expect (laws i l1 l2) phi.
  Proof.
    induction l1 as [|nya l1 IH]; intros i [|a l2] [|k l3] phi L2 L3 Hi; try discriminate; [reflexivity|].
    cbn [tlaws laws expect map]. cbn in L2, L3, Hi.
    rewrite <- (target_balance i nya a k) by lia. apply mean_fext. intros t.
    rewrite (expect_mean_swap _ (tl i (snd (fst t)) (fst (fst (fst t))))
      (fun l a0 => expect (laws (Datatypes.S i) (map (fun x => snd (fst x)) l) (map (fun x => fst (fst (fst x))) l)) (fun l0 => phi (a0 :: l0)))).
    apply mean_fext. intros a0. apply (IH _ _ _ (fun l0 => phi (a0 :: l0))); lia.
  Qed.

  (** * The end of the loop *)
  Definition gk (nya : bool) (k : key) : list key := if nya then [k] else [].
  Lemma gk_derived nya k x : In x (gk nya k) -> derived k x.
  Proof. destruct nya; cbn; [|contradiction]. intros [<-|[]]; constructor. Qed.

  Definition final (w : kw) (st : @rstate A) : list A :=
    map (fun x => fst (fst (fst x)))
      (map4 (fun i nya a k => (if nya then fl i (w k) else a, Fin 0, false, k)) 0 (not_yet st) (sampled st) (rkeys st)).

  Lemma final_drawn l1 : forall i l2 l3, length l2 = length l1 -> length l3 = length l1 -> (i + length l1 <= n)%nat ->
    ForallOrdPairs incomp l3 ->
    drawn P (cc gk l1 l3) (fun w => map (fun x => fst (fst (fst x)))
      (map4 (fun i nya a k => ((if nya : bool then fl i (w k) else a), Fin 0, false, k)) i l1 l2 l3)) (expect (laws i l1 l2)).
  Proof.
    induction l1 as [|nya l1 IH]; intros i [|a l2] [|k l3] L2 L3 Hi F; try discriminate.
    - apply (drawn_const P HP (@nil A)).
    - rewrite cc_head. cbn [map4 laws map fst]. inversion F as [|? ? F1 F2]; subst. cbn in L2, L3, Hi.
      apply (drawn_cons P (gk nya k) (cc gk l1 l3) (fun w => if nya then fl i (w k) else a)).
      + destruct nya; cbn [gk tl].
        * apply (drawn_law P) with (M := fun phi => mean P (fun x => phi (fl i x))); [intros; apply Lfl; lia|]. apply (drawn_key P HP).
        * apply (drawn_law P) with (M := fun phi => phi a); [intros; symmetry; apply mean_point|]. apply (drawn_const P HP).
      + apply IH; [| | |exact F2]; lia.
      + apply cc_head_disjoint; [exact F1|exact gk_derived|exact gk_derived].
  Qed.

  (** * The loop *)
  Fixpoint chain (fuel : nat) (k : key) : list key :=
    k :: match fuel with O => [] | Datatypes.S f => KSplit k 3 1 :: KSplit k 3 2 :: chain f (KSplit k 3 0) end.
  Definition ck (fuel : nat) (nya : bool) (k : key) : list key := if nya then chain fuel k else [].
  Lemma chain_derived fuel : forall k x, In x (chain fuel k) -> derived k x.
  Proof.
    induction fuel as [|f IH]; intros k x; cbn.
    - intros [<-|[]]. constructor.
    - intros [<-|[<-|[<-|H]]]; [constructor|constructor; constructor|constructor; constructor|].
      apply IH in H. apply (derived_trans _ _ _ (derived_split k k 3 0 (derived_refl k)) H).
  Qed.

  Definition good (st : @rstate A) : Prop :=
    length (not_yet st) = n /\ length (sampled st) = n /\ length (rkeys st) = n /\ bound st = Fin b
    /\ ForallOrdPairs incomp (rkeys st).

  Definition next (st : @rstate A) (t : list tup) : @rstate A :=
    RState (map (fun x => snd (fst x)) t) (map (fun x => fst (fst (fst x))) t) (Fin b) (map snd t)
           (Datatypes.S (riter st)) (evals st + count_true (not_yet st)).

  Notation pall w := (proposal_all (fun k => pk (w k)) dens (fun k => un (w k)) infl).
  Notation loop w := (rej_loop (fun k => pk (w k)) dens (fun k => un (w k)) infl).

  Lemma round_dens w l1 : forall i l2 l3, (i + length l1 <= n)%nat ->
    List.Forall (fun x => exists r, x = Fin r /\ r <= b) (map (fun x => snd (fst (fst x))) (map4 (pc w) i l1 l2 l3)).
  Proof.
    induction l1 as [|nya l1 IH]; intros i [|a l2] [|k l3] Hi; cbn [map4 map]; try constructor; cbn in Hi; [|apply IH; lia].
    destruct nya; cbn.
    - rewrite Hdens by apply Hpk. eexists. split; [reflexivity|]. apply Hd; [lia|apply Hpk].
    - exists 0. split; [reflexivity|lra].
  Qed.

  Lemma pall_next w st : length (not_yet st) = n -> bound st = Fin b ->
    pall w st = next st (map4 (pc w) 0 (not_yet st) (sampled st) (rkeys st)).
  Proof.
    intros L Eb. unfold proposal_all. cbv zeta. rewrite Eb, (xmaxl_le b); [reflexivity|]. apply round_dens. lia.
  Qed.

  Lemma round_keys w l1 : forall i l2 l3 f, length l2 = length l1 -> length l3 = length l1 ->
    let t := map4 (pc w) i l1 l2 l3 in
    length t = length l1
    /\ (ForallOrdPairs incomp l3 -> ForallOrdPairs incomp (map snd t))
    /\ Forall2 derived l3 (map snd t)
    /\ incl (cc (ck f) (map (fun x => snd (fst x)) t) (map snd t)) (cc (fun nya k => if nya then chain f (KSplit k 3 0) else []) l1 l3).
  Proof.
    induction l1 as [|nya l1 IH]; intros i [|a l2] [|k l3] f L2 L3; try discriminate; cbn [map4 map].
    - repeat split; try constructor. intros x [].
    - cbn in L2, L3. destruct (IH (Datatypes.S i) l2 l3 f ltac:(lia) ltac:(lia)) as (H1 & H2 & H3 & H4).
      assert (D : derived k (snd (pc w i nya a k))) by (destruct nya; cbn; [constructor; constructor|constructor]).
      split; [cbn; rewrite H1; reflexivity|]. split; [|split].
      + intros F. inversion F as [|? ? F1 F2]; subst. constructor; [|apply H2, F2].
        apply Forall_forall. intros q Hq. destruct (In_nth _ _ q Hq) as (j & Hj & <-).
        assert (L : length l3 = length (map snd (map4 (pc w) (Datatypes.S i) l1 l2 l3))) by (rewrite map_length; lia).
        assert (Hn : forall l l' j (d0 d1 : key), Forall2 derived l l' -> (j < length l')%nat -> derived (nth j l d0) (nth j l' d1)).
        { clear. intros l l' j d0 d1 H. revert j. induction H; intros [|j] Hj; cbn in *; try lia; [assumption|]. apply IHForall2. lia. }
        apply (incomp_sub k (nth j l3 q)); [|exact D|apply Hn; [exact H3|exact Hj]].
        rewrite Forall_forall in F1. apply F1, nth_In. rewrite L. exact Hj.
      + constructor; [exact D|exact H3].
      + rewrite !cc_head. apply incl_app; [|apply incl_appr, H4]. apply incl_appl.
        destruct nya; cbn; [|intros x []]. destruct (xltb _ _); cbn; [apply incl_refl|intros x []].
  Qed.

  Lemma cc_incl f g l1 l3 : (forall b k, incl (f b k) (g b k)) -> incl (cc f l1 l3) (cc g l1 l3).
  Proof.
    intros H x Hx. unfold cc in *. apply in_flat_map in Hx. destruct Hx as (p & Hp & Hx).
    apply in_flat_map. exists p. split; [exact Hp|]. apply H, Hx.
  Qed.

  Lemma loop_drawn maxrej fuel : forall st, good st ->
    drawn P (cc (ck fuel) (not_yet st) (rkeys st)) (fun w => final w (loop w fuel maxrej st))
      (expect (laws 0 (not_yet st) (sampled st))).
  Proof.
    induction fuel as [|f IH]; intros st (G1 & G2 & G3 & G4 & G5).
    - cbn [rej_loop]. unfold ck. cbn [chain]. apply final_drawn; [lia|lia|lia|exact G5].
    - cbn [rej_loop]. destruct (continue maxrej st).
      + apply (drawn_incl P) with (ks := cc fk (not_yet st) (rkeys st)
          ++ cc (fun nya k => if nya then chain f (KSplit k 3 0) else []) (not_yet st) (rkeys st)).
        { apply incl_app; apply cc_incl; intros [|] k; cbn; try apply incl_refl.
          - intros x [<-|[<-|[]]]; cbn; auto.
          - intros x Hx. right. right. right. exact Hx. }
        apply (drawn_ext P) with (a := fun w => final w (loop w f maxrej (next st (map4 (pc w) 0 (not_yet st) (sampled st) (rkeys st))))).
        { intros w. rewrite (pall_next w st G1 G4). reflexivity. }
        apply (drawn_law P) with (M := fun phi => expect (tlaws 0 (not_yet st) (sampled st) (rkeys st))
          (fun t => expect (laws 0 (not_yet (next st t)) (sampled (next st t))) phi)).
        { intros phi. cbn [next not_yet sampled]. apply round_balance; lia. }
        pose proof (drawn_bind P (cc fk (not_yet st) (rkeys st))
          (cc (fun nya k => if nya then chain f (KSplit k 3 0) else []) (not_yet st) (rkeys st))
          (fun w => map4 (pc w) 0 (not_yet st) (sampled st) (rkeys st))
          (fun t w => final w (loop w f maxrej (next st t)))
          (expect (tlaws 0 (not_yet st) (sampled st) (rkeys st)))
          (fun t phi => expect (laws 0 (not_yet (next st t)) (sampled (next st t))) phi)) as H.
        cbv beta in H. apply H; clear H.
        * apply round_drawn; [lia|lia|lia|exact G5].
        * apply cc_disjoint; [exact G5|exact fk_derived| |].
          -- intros nya k x. destruct nya; [|intros []]. intros Hx. apply chain_derived in Hx.
             apply (derived_trans _ _ _ (derived_split k k 3 0 (derived_refl k)) Hx).
          -- intros nya k x. destruct nya; [|intros []]. cbn. intros H1 H2. apply chain_derived in H2.
             destruct H1 as [<-|[<-|[]]]; apply derived_split_inv in H2; lia.
        * intros w. destruct (round_keys w (not_yet st) 0 (sampled st) (rkeys st) f ltac:(lia) ltac:(lia)) as (K1 & K2 & K3 & K4).
          cbv zeta in K1, K2, K3, K4. set (t := map4 (pc w) 0 (not_yet st) (sampled st) (rkeys st)) in *. clearbody t.
          eapply (drawn_incl P); [exact K4|].
          apply (IH (next st t)). repeat split; cbn; rewrite ?map_length; try lia. apply K2, G5.
      + apply (drawn_incl P) with (ks := cc gk (not_yet st) (rkeys st)).
        { apply cc_incl. intros [|] k; cbn; [|apply incl_refl]. intros x [<-|[]]; cbn; auto. }
        apply final_drawn; [lia|lia|lia|exact G5].
  Qed.

  (** * The start *)
  Lemma start_balance m : forall i phi, (i + m <= n)%nat ->
    expect (repeat cand m) (fun as_ =>
      expect (map bern (map (fun ia => d (fst ia) (snd ia) / b) (combine (seq i m) as_)))
        (fun r => expect (laws i r as_) phi))
    = expect (map ex (seq i m)) phi.
  Proof.
    induction m as [|m IH]; intros i phi Hi; [reflexivity|].
    cbn [repeat seq expect combine map laws fst snd].
    transitivity (mean cand (fun a => mean (bern (d i a / b)) (fun r => mean (tl i r a) (fun y => expect (map ex (seq (Datatypes.S i) m)) (fun l => phi (y :: l)))))).
    - apply mean_fext. intros a.
      rewrite (expect_mean_swap _ (bern (d i a / b)) (fun as_ r => expect (map bern (map (fun ia => d (fst ia) (snd ia) / b) (combine (seq (Datatypes.S i) m) as_)))
        (fun l => mean (tl i r a) (fun a0 => expect (laws (Datatypes.S i) l as_) (fun l0 => phi (a0 :: l0)))))).
      apply mean_fext. intros r.
      etransitivity.
      { apply expect_fext. intros as_.
        apply (expect_mean_swap _ (tl i r a) (fun l a0 => expect (laws (Datatypes.S i) l as_) (fun l0 => phi (a0 :: l0)))). }
      rewrite (expect_mean_swap _ (tl i r a) (fun as_ a0 => expect (map bern (map (fun ia => d (fst ia) (snd ia) / b) (combine (seq (Datatypes.S i) m) as_)))
        (fun l => expect (laws (Datatypes.S i) l as_) (fun l0 => phi (a0 :: l0))))).
      apply mean_fext. intros a0. apply (IH (Datatypes.S i) (fun l => phi (a0 :: l))). lia.
    - assert (exists a0 : A, True) as [a0 _].
      { destruct cand as [|[a0 p0] c]; [unfold prob in Hcand; cbn in Hcand; lra|]. exists a0. exact I. }
      pose proof (target_balance i true a0 (KRoot 0) (fun y => expect (map ex (seq (Datatypes.S i) m)) (fun l => phi (y :: l))) ltac:(lia)) as B.
      rewrite mean_tlaw in B. exact B.
  Qed.

  Lemma split_incomp k m : ForallOrdPairs incomp (split_keys k m 0 m).
  Proof.
    unfold split_keys.
    assert (H : forall c s, ForallOrdPairs incomp (map (fun j => KSplit k m j) (seq s c))).
    { induction c as [|c IH]; intros s'; cbn; constructor; [|apply IH].
      apply Forall_forall. intros q Hq. apply in_map_iff in Hq. destruct Hq as (j & <- & Hj). apply in_seq in Hj.
      apply incomp_children. lia. }
    apply H.
  Qed.

  Lemma laws_true m : forall i as_, length as_ = m -> laws i (repeat true m) as_ = map ex (seq i m).
  Proof. induction m as [|m IH]; intros i [|a l] L; try discriminate; [reflexivity|]. cbn. rewrite IH; [reflexivity|]. cbn in L. lia. Qed.

  Definition first_test (as_ : list A) (us : list R) : list bool :=
    map (fun qu => Rltb (fst qu) (snd qu)) (combine (map (fun ia => d (fst ia) (snd ia) / b) (combine (seq 0 n) as_)) us).
  Definition first_state (k : key) (as_ : list A) (us : list R) : @rstate A :=
    RState (first_test as_ us) as_ (Fin b) (split_keys (KSplit k 3 2) n 0 n) 1 n.

  Lemma start_eq (w : kw) k :
    rej_start (fun k => pkn (w k)) dens (fun k => unn (w k)) infl n k b
    = first_state k (pkn (w (KSplit k 3 0)) n) (unn (w (KSplit k 3 1)) n).
  Proof.
    unfold rej_start, first_state. cbv zeta.
    destruct (Hpkn (w (KSplit k 3 0))) as [L F]. set (as_ := pkn (w (KSplit k 3 0)) n) in *. clearbody as_.
    assert (E : map (fun ia => dens (fst ia) (snd ia)) (combine (seq 0 n) as_)
                = map (fun ia => Fin (d (fst ia) (snd ia))) (combine (seq 0 n) as_)).
    { apply map_ext_in. intros [i a] H. apply Hdens. rewrite Forall_forall in F. apply F. apply (in_combine_r _ _ _ _ H). }
    rewrite E, (xmaxl_le b).
    - f_equal. unfold first_test. set (us := unn _ n). clearbody us.
      generalize (combine (seq 0 n) as_). intros l. revert us.
      induction l as [|[i a] l IH]; intros [|u us]; cbn; try reflexivity.
      destruct (Req_EM_T b 0) as [E0|_]; [lra|]. f_equal. apply IH.
    - apply Forall_forall. intros x Hx. apply in_map_iff in Hx. destruct Hx as ([i a] & <- & H). cbn.
      eexists. split; [reflexivity|]. apply Hd; [|rewrite Forall_forall in F; apply F; apply (in_combine_r _ _ _ _ H)].
      apply in_combine_l, in_seq in H. lia.
  Qed.

  Definition rej_keys (maxrej : nat) (k : key) : list key :=
    [KSplit k 3 0] ++ [KSplit k 3 1] ++ flat_map (chain maxrej) (split_keys (KSplit k 3 2) n 0 n).

  Lemma rej_keys_derived maxrej k x : In x (rej_keys maxrej k) -> derived k x.
  Proof.
    unfold rej_keys. intros [<-|[<-|H]]; [constructor; constructor|constructor; constructor|].
    apply in_flat_map in H. destruct H as (q & Hq & H). apply chain_derived in H.
    unfold split_keys in Hq. apply in_map_iff in Hq. destruct Hq as (j & <- & _).
    apply (derived_trans _ (KSplit (KSplit k 3 2) n j)); [|exact H]. repeat constructor.
  Qed.

  Theorem rejection_drawn k n0 maxrej :
    drawn P (rej_keys maxrej k) (fun w => fst (rejection (fun k => pk (w k)) (fun k => pkn (w k)) dens (fun i k => fl i (w k))
       (fun k => un (w k)) (fun k => unn (w k)) infl n n0 k maxrej b)) (expect (map ex (seq 0 n))).
  Proof.
    set (B := flat_map (chain maxrej) (split_keys (KSplit k 3 2) n 0 n)).
    assert (DB : forall x, In x B -> derived (KSplit k 3 2) x).
    { intros x H. apply in_flat_map in H. destruct H as (q & Hq & H). apply chain_derived in H.
      unfold split_keys in Hq. apply in_map_iff in Hq. destruct Hq as (j & <- & _).
      apply (derived_trans _ (KSplit (KSplit k 3 2) n j)); [|exact H]. repeat constructor. }
    apply (drawn_ext P) with (a := fun w => final w (loop w maxrej maxrej
      (first_state k (pkn (w (KSplit k 3 0)) n) (unn (w (KSplit k 3 1)) n)))).
    { intros w. unfold rejection. cbv zeta. rewrite start_eq. reflexivity. }
    apply (drawn_law P) with (M := fun phi => expect (repeat cand n) (fun as_ =>
      expect (map bern (map (fun ia => d (fst ia) (snd ia) / b) (combine (seq 0 n) as_)))
        (fun r => expect (laws 0 r as_) phi))).
    { intros phi. apply start_balance. lia. }
    pose proof (drawn_bind P [KSplit k 3 0] ([KSplit k 3 1] ++ B) (fun w => pkn (w (KSplit k 3 0)) n)
      (fun as_ w => final w (loop w maxrej maxrej (first_state k as_ (unn (w (KSplit k 3 1)) n))))
      (expect (repeat cand n))
      (fun as_ phi => expect (map bern (map (fun ia => d (fst ia) (snd ia) / b) (combine (seq 0 n) as_)))
        (fun r => expect (laws 0 r as_) phi))) as H.
    cbv beta in H. apply H; clear H.
    - apply (drawn_law P) with (M := fun phi => mean P (fun x => phi (pkn x n))); [exact Lpkn|].
      apply (drawn_key P HP (KSplit k 3 0) (fun x => pkn x n)).
    - intros x [<-|[]] [E|H]; [congruence|]. apply DB, derived_split_inv in H. lia.
    - intros w. destruct (Hpkn (w (KSplit k 3 0))) as [L F]. set (as_ := pkn (w (KSplit k 3 0)) n) in *. clearbody as_.
      pose proof (drawn_bind P [KSplit k 3 1] B (fun w => first_test as_ (unn (w (KSplit k 3 1)) n))
        (fun r w => final w (loop w maxrej maxrej (RState r as_ (Fin b) (split_keys (KSplit k 3 2) n 0 n) 1 n)))
        (expect (map bern (map (fun ia => d (fst ia) (snd ia) / b) (combine (seq 0 n) as_))))
        (fun r phi => expect (laws 0 r as_) phi)) as H.
      cbv beta in H. apply H; clear H.
      + apply (drawn_law P) with (M := fun phi => mean P (fun x => phi (first_test as_ (unn x n)))).
        { intros phi. apply Lunn; assumption. }
        apply (drawn_key P HP (KSplit k 3 1) (fun x => first_test as_ (unn x n))).
      + intros x [<-|[]] H. apply DB, derived_split_inv in H. lia.
      + intros w'. set (us := unn (w' (KSplit k 3 1)) n). assert (Lu : length us = n) by apply Hunn. clearbody us.
        assert (Lr : length (first_test as_ us) = n).
        { unfold first_test. rewrite map_length, combine_length, map_length, combine_length, seq_length. lia. }
        set (r := first_test as_ us) in *. clearbody r.
        apply (drawn_incl P) with (ks := cc (ck maxrej) r (split_keys (KSplit k 3 2) n 0 n)).
        * unfold cc, B. intros x Hx. apply in_flat_map in Hx. destruct Hx as ([nya q] & Hq & Hx). cbn in Hx.
          destruct nya; [|contradiction]. apply in_flat_map. exists q. split; [apply (in_combine_r _ _ _ _ Hq)|exact Hx].
        * pose proof (loop_drawn maxrej maxrej (RState r as_ (Fin b) (split_keys (KSplit k 3 2) n 0 n) 1 n)) as HL.
          apply HL. repeat split; cbn; try assumption.
          -- unfold split_keys. rewrite map_length, seq_length. reflexivity.
          -- apply split_incomp.
  Qed.
End Rej.
