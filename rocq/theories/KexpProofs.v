(** Expected values over random streams: reordering, independence of distinct
    keys, composition. *)
From Coq Require Import Reals List Arith Bool Lia Lra Permutation FunctionalExtensionality.
From Verif Require Import Keys WeightsSpec UnbSpec UnbProofs KexpSpec.
Import ListNotations.
Open Scope R_scope.

Lemma mean_swap {A B} (d : law A) (e : law B) f :
  mean d (fun x => mean e (fun y => f x y)) = mean e (fun y => mean d (fun x => f x y)).
Proof.
  unfold mean. rewrite (Rsum_ext _ (fun ap => Rsum (map (fun bq => snd ap * (snd bq * f (fst ap) (fst bq))) e))).
  2:{ intros ap _. rewrite Rsum_scal. reflexivity. }
  rewrite Rsum_swap. apply Rsum_ext. intros bq _. rewrite <- Rsum_scal. apply Rsum_ext. intros; lra.
Qed.
Lemma mean_fext {A} (d : law A) f g : (forall x, f x = g x) -> mean d f = mean d g.
Proof. intros H. apply mean_ext. intros; apply H. Qed.

Lemma mean_le {A} (d : law A) f g : (forall xp, In xp d -> 0 <= snd xp) -> (forall x, f x <= g x) -> mean d f <= mean d g.
Proof.
  intros Pos H. unfold mean. induction d as [|[x p] d IH]; cbn; [lra|].
  assert (0 <= p) by (apply (Pos (x, p)); left; reflexivity).
  assert (Rsum (map (fun ap => snd ap * f (fst ap)) d) <= Rsum (map (fun ap => snd ap * g (fst ap)) d)).
  { apply IH. intros xp Hxp. apply Pos. right. exact Hxp. }
  pose proof (Rmult_le_compat_l p _ _ H0 (H x)). lra.
Qed.

Section K.
  Context {W : Type}.
  Variable P : law W.
  Notation kexp := (kexp P).
  Notation mean_on := (mean_on P).

  Lemma upd_same (w : key -> W) k x : upd w k x k = x.
  Proof. unfold upd. destruct (key_eq_dec k k); congruence. Qed.
  Lemma upd_other (w : key -> W) k x k' : k' <> k -> upd w k x k' = w k'.
  Proof. unfold upd. destruct (key_eq_dec k' k); congruence. Qed.
  Lemma upd_swap (w : key -> W) k x k' y : k <> k' -> upd (upd w k x) k' y = upd (upd w k' y) k x.
  Proof.
    intros N. extensionality q. unfold upd. destruct (key_eq_dec q k'), (key_eq_dec q k); congruence.
  Qed.

  Lemma kexp_ext ks F G : (forall w, F w = G w) -> forall w, kexp ks F w = kexp ks G w.
  Proof. intros H. induction ks as [|k r IH]; intros w; cbn; [apply H|]. apply mean_fext. intros; apply IH. Qed.

  (** equality is only needed at streams that agree with [w] off [ks] *)
  Lemma kexp_cong ks F G : forall w, (forall w', (forall k, ~ In k ks -> w' k = w k) -> F w' = G w') -> kexp ks F w = kexp ks G w.
  Proof.
    induction ks as [|k r IH]; intros w H; cbn; [apply H; reflexivity|].
    apply mean_fext. intros x. apply IH. intros w' Hw. apply H. intros q Hq.
    rewrite Hw by (intros I; apply Hq; right; exact I). apply upd_other. intros ->. apply Hq. left. reflexivity.
  Qed.

  Lemma kexp_perm ks ks' : Permutation ks ks' -> NoDup ks -> forall F w, kexp ks F w = kexp ks' F w.
  Proof.
    induction 1 as [|k l l' H IH|k k' l|l l' l'' H1 IH1 H2 IH2]; intros N F w.
    - reflexivity.
    - inversion N; subst. cbn. apply mean_fext. intros; apply IH; assumption.
    - cbn. rewrite mean_swap. apply mean_fext. intros x. apply mean_fext. intros y.
      rewrite upd_swap; [reflexivity|]. inversion N as [|? ? N1 N2]; subst. intros ->. apply N1. left. reflexivity.
    - rewrite IH1 by exact N. apply IH2. apply (Permutation_NoDup H1 N).
  Qed.

  Lemma kexp_app ks1 ks2 F : forall w, kexp (ks1 ++ ks2) F w = kexp ks1 (fun w' => kexp ks2 F w') w.
  Proof. induction ks1 as [|k r IH]; intros w; cbn; [reflexivity|]. apply mean_fext. intros; apply IH. Qed.

  Hypothesis HP : prob P.
  Lemma kexp_const ks c w : kexp ks (fun _ => c) w = c.
  Proof.
    revert w. induction ks as [|k r IH]; intros w; cbn; [reflexivity|].
    rewrite (mean_fext _ _ (fun _ => c)) by (intros; apply IH). apply mean_const, HP.
  Qed.

  Definition keep (ks ks' : list key) := filter (fun k => if in_dec key_eq_dec k ks then true else false) ks'.
  Definition drop (ks ks' : list key) := filter (fun k => if in_dec key_eq_dec k ks then false else true) ks'.
  Lemma keep_drop ks ks' : Permutation ks' (keep ks ks' ++ drop ks ks').
  Proof.
    unfold keep, drop. induction ks' as [|k r IH]; cbn; [constructor|].
    destruct (in_dec key_eq_dec k ks); cbn; [constructor; exact IH|]. apply Permutation_cons_app, IH.
  Qed.
  Lemma keep_in ks ks' k : In k (keep ks ks') <-> In k ks /\ In k ks'.
  Proof. unfold keep. rewrite filter_In. destruct (in_dec key_eq_dec k ks); intuition congruence. Qed.
  Lemma drop_in ks ks' k : In k (drop ks ks') <-> ~ In k ks /\ In k ks'.
  Proof. unfold drop. rewrite filter_In. destruct (in_dec key_eq_dec k ks); intuition congruence. Qed.

  Lemma mean_on_incl ks1 ks2 F v : incl ks1 ks2 -> mean_on ks1 F v -> mean_on ks2 F v.
  Proof. intros I H ks' w N I'. apply H; [exact N|]. intros k Hk. apply I', I, Hk. Qed.
  Lemma mean_on_ext ks F G v : (forall w, F w = G w) -> mean_on ks F v -> mean_on ks G v.
  Proof. intros E H ks' w N I. rewrite <- (H ks' w N I). apply kexp_ext. intros; symmetry; apply E. Qed.
  Lemma mean_on_const ks c : mean_on ks (fun _ => c) c.
  Proof. intros ks' w N I. apply kexp_const. Qed.

  (** there is at most one mean *)
  Lemma has_mean_unique F v v' : has_mean P F v -> has_mean P F v' -> v = v'.
  Proof.
    intros [ks H] [ks' H']. destruct P as [|[x p] Q] eqn:EP; [unfold prob in HP; cbn in HP; lra|].
    rewrite <- EP in *. clear EP.
    set (l := nodup key_eq_dec (ks ++ ks')).
    rewrite <- (H l (fun _ => x)), <- (H' l (fun _ => x)); [reflexivity| | | |];
      try apply NoDup_nodup; intros k Hk; apply nodup_In, in_or_app; auto.
  Qed.

  (** [a] reads the stream at [ks] only *)
  Definition reads {T} (ks : list key) (a : (key -> W) -> T) : Prop :=
    forall w w', (forall k, In k ks -> w k = w' k) -> a w = a w'.

  (** [a] reads at [ks] only and has law [M] *)
  Definition drawn {T} (ks : list key) (a : (key -> W) -> T) (M : (T -> R) -> R) : Prop :=
    reads ks a /\ forall phi, mean_on ks (fun w => phi (a w)) (M phi).

  Lemma mean_on_bind {T} A0 B0 (a : (key -> W) -> T) (G : T -> (key -> W) -> R) g v :
    reads A0 a -> (forall k, In k A0 -> In k B0 -> False) ->
    (forall w, mean_on B0 (G (a w)) (g (a w))) ->
    mean_on A0 (fun w => g (a w)) v ->
    mean_on (A0 ++ B0) (fun w => G (a w) w) v.
  Proof.
    intros R D HG Ha ks w N I.
    pose proof (Permutation_NoDup (keep_drop A0 ks) N) as N'.
    rewrite (kexp_perm _ _ (keep_drop A0 ks) N), kexp_app.
    assert (NA : NoDup (keep A0 ks)) by (apply NoDup_filter, N).
    assert (NB : NoDup (drop A0 ks)) by (apply NoDup_filter, N).
    rewrite <- (Ha (keep A0 ks) w NA).
    2:{ intros k Hk. apply keep_in. split; [exact Hk|]. apply I, in_or_app. left. exact Hk. }
    apply kexp_ext. intros w'.
    rewrite <- (HG w' (drop A0 ks) w' NB).
    2:{ intros k Hk. apply drop_in. split; [intros J; exact (D k J Hk)|]. apply I, in_or_app. right. exact Hk. }
    apply kexp_cong. intros w'' Hw. rewrite (R w'' w'); [reflexivity|].
    intros k Hk. apply Hw. intros J. apply drop_in in J. apply J, Hk.
  Qed.

  Lemma reads_incl {T} ks ks' (a : (key -> W) -> T) : incl ks ks' -> reads ks a -> reads ks' a.
  Proof. intros I H w w' E. apply H. intros k Hk. apply E, I, Hk. Qed.

  Lemma drawn_incl {T} ks ks' (a : (key -> W) -> T) M : incl ks ks' -> drawn ks a M -> drawn ks' a M.
  Proof.
    intros I [H1 H2]. split; [exact (reads_incl _ _ _ I H1)|]. intros phi. apply (mean_on_incl _ _ _ _ I (H2 phi)).
  Qed.

  Lemma drawn_ext {T} ks (a b : (key -> W) -> T) M : (forall w, a w = b w) -> drawn ks a M -> drawn ks b M.
  Proof.
    intros E [H1 H2]. split.
    - intros w w' Hw. rewrite <- !E. apply H1, Hw.
    - intros phi. apply (mean_on_ext _ (fun w => phi (a w))); [|apply H2]. intros w. rewrite E. reflexivity.
  Qed.

  Lemma drawn_law {T} ks (a : (key -> W) -> T) M N : (forall phi, M phi = N phi) -> drawn ks a M -> drawn ks a N.
  Proof. intros E [H1 H2]. split; [exact H1|]. intros phi. rewrite <- E. apply H2. Qed.

  Lemma drawn_const {T} (c : T) : drawn [] (fun _ => c) (fun phi => phi c).
  Proof. split; [intros ? ? _; reflexivity|]. intros phi. apply mean_on_const. Qed.

  Lemma drawn_key {T} k (f : W -> T) : drawn [k] (fun w => f (w k)) (fun phi => mean P (fun x => phi (f x))).
  Proof.
    split. { intros w w' E. rewrite (E k) by (left; reflexivity). reflexivity. }
    intros phi ks w N I.
    assert (Hk : In k ks) by (apply I; left; reflexivity).
    destruct (in_split _ _ Hk) as (l1 & l2 & ->).
    rewrite (kexp_perm _ _ (Permutation_sym (Permutation_middle l1 l2 k)) N). cbn.
    apply mean_fext. intros x.
    rewrite <- (kexp_const (l1 ++ l2) (phi (f x)) w).
    rewrite (kexp_cong _ _ (fun _ => phi (f x))); [rewrite !kexp_const; reflexivity|].
    intros w' Hw. rewrite Hw; [rewrite upd_same; reflexivity|]. apply (NoDup_remove_2 _ _ _ N).
  Qed.

  Lemma drawn_bind {T U} A0 B0 (a : (key -> W) -> T) (G : T -> (key -> W) -> U) M N :
    drawn A0 a M -> (forall k, In k A0 -> In k B0 -> False) ->
    (forall w, drawn B0 (G (a w)) (N (a w))) ->
    drawn (A0 ++ B0) (fun w => G (a w) w) (fun phi => M (fun x => N x phi)).
  Proof.
    intros [R H] D HG. split.
    - intros w w' E. rewrite (R w w'); [|intros k Hk; apply E, in_or_app; left; exact Hk].
      apply (proj1 (HG w')). intros k Hk. apply E, in_or_app. right. exact Hk.
    - intros phi.
      apply (mean_on_bind A0 B0 a (fun x w => phi (G x w)) (fun x => N x phi) _ R D); [|apply (H (fun x => N x phi))].
      intros w. apply (proj2 (HG w)).
  Qed.

  Lemma drawn_map {T U} ks (a : (key -> W) -> T) (f : T -> U) M :
    drawn ks a M -> drawn ks (fun w => f (a w)) (fun phi => M (fun x => phi (f x))).
  Proof.
    intros [R H]. split; [intros w w' E; f_equal; apply R, E|]. intros phi. apply (H (fun x => phi (f x))).
  Qed.

  Lemma drawn_has_law {T} ks (a : (key -> W) -> T) M : drawn ks a M -> has_law P a M.
  Proof. intros [_ H]. exists ks. exact H. Qed.

  (** one after the other *)
  Lemma drawn_cons {T} A0 B0 (a : (key -> W) -> T) (b : (key -> W) -> list T) d ds :
    drawn A0 a (mean d) -> drawn B0 b (expect ds) -> (forall k, In k A0 -> In k B0 -> False) ->
    drawn (A0 ++ B0) (fun w => a w :: b w) (expect (d :: ds)).
  Proof.
    intros Ha Hb D.
    apply (drawn_bind A0 B0 a (fun x w => x :: b w) _ (fun x phi => expect ds (fun l => phi (x :: l))) Ha D).
    intros w. apply (drawn_map B0 b (fun l => a w :: l) _ Hb).
  Qed.


  (** monotonicity *)
  Hypothesis HPpos : forall xp, In xp P -> 0 <= snd xp.
  Lemma kexp_le ks F G : (forall w, F w <= G w) -> forall w, kexp ks F w <= kexp ks G w.
  Proof.
    intros H. induction ks as [|k r IH]; intros w; cbn; [apply H|]. apply mean_le; [exact HPpos|]. intros x. apply IH.
  Qed.
  Lemma has_mean_le F G u v : (forall w, F w <= G w) -> has_mean P F u -> has_mean P G v -> u <= v.
  Proof.
    intros H [ks Hu] [ks' Hv]. destruct P as [|[x p] Q] eqn:EP; [unfold prob in HP; cbn in HP; lra|].
    rewrite <- EP in *. clear EP.
    set (l := nodup key_eq_dec (ks ++ ks')).
    rewrite <- (Hu l (fun _ => x)), <- (Hv l (fun _ => x)); [apply kexp_le, H| | | |];
      try apply NoDup_nodup; intros k Hk; apply nodup_In, in_or_app; auto.
  Qed.
End K.
