(** Proofs about the cdict model. *)
From Coq Require Import String.
From Coq Require Import List Arith ZArith Bool Lia.
From Verif Require Import CdictModel CdictSpec.
Import ListNotations.
Open Scope string_scope.

Section ValInd.
  Context {X O : Type}.
  Variable P : val X O -> Prop.
  Hypothesis HA : forall a, P (VArr a).
  Hypothesis HN : forall x, P (VNum x).
  Hypothesis HO : forall o, P (VObj o).
  Hypothesis HC : forall b c, Forall (fun kv => P (snd kv)) c -> P (VCd b c).
  Fixpoint val_ind' (v : val X O) : P v :=
    match v with
    | VArr a => HA a
    | VNum x => HN x
    | VObj o => HO o
    | VCd b c =>
        HC b c ((fix go (l : list (string * val X O)) : Forall (fun kv => P (snd kv)) l :=
                   match l with
                   | [] => Forall_nil _
                   | kv :: l' => Forall_cons kv (val_ind' (snd kv)) (go l')
                   end) c)
    end.
End ValInd.

(** Generic traversal of attributes. *)
Fixpoint trav {A B : Type} (f : string -> A -> option B) (l : list (string * A)) : option (list (string * B)) :=
  match l with
  | [] => Some []
  | (k, w) :: l' =>
      match f k w, trav f l' with
      | Some w', Some r => Some ((k, w') :: r)
      | _, _ => None
      end
  end.

Lemma trav_keys {A B} (f : string -> A -> option B) : forall l r,
  trav f l = Some r -> map fst r = map fst l.
Proof.
  induction l as [|[k w] l IH]; simpl; intros r H.
  - now inversion H.
  - destruct (f k w); [|discriminate]. destruct (trav f l) as [r'|]; [|discriminate].
    inversion H; subst; simpl. f_equal. auto.
Qed.

Lemma trav_ext {A B} (f g : string -> A -> option B) l :
  Forall (fun kv => f (fst kv) (snd kv) = g (fst kv) (snd kv)) l -> trav f l = trav g l.
Proof.
  induction 1 as [|[k w] l H _ IH]; simpl in *; auto. now rewrite H, IH.
Qed.

Section P.
  Context {X O : Type}.
  Notation val := (val X O).
  Notation kvs := (list (string * val)).

  Lemma getattr_cons k (v : val) c k' :
    cd_getattr k' ((k, v) :: c) = if String.eqb k k' then Some v else cd_getattr k' c.
  Proof. unfold cd_getattr; simpl. destruct (String.eqb k k'); reflexivity. Qed.

  Lemma getattr_in k (c : kvs) w : cd_getattr k c = Some w -> In (k, w) c.
  Proof.
    induction c as [|[k' v] c IH]; [discriminate|].
    rewrite getattr_cons. destruct (String.eqb_spec k' k) as [->|Hne]; intros H.
    - inversion H; subst; now left.
    - right; auto.
  Qed.

  Lemma getattr_none k (c : kvs) : cd_getattr k c = None <-> ~ In k (map fst c).
  Proof.
    induction c as [|[k' v] c IH]; simpl; [split; auto|].
    rewrite getattr_cons. destruct (String.eqb_spec k' k) as [->|Hne].
    - split; [discriminate|intros H; exfalso; apply H; now left].
    - rewrite IH. intuition.
  Qed.

  Lemma getattr_nodup k (c : kvs) w : NoDup (map fst c) -> In (k, w) c -> cd_getattr k c = Some w.
  Proof.
    induction c as [|[k' v] c IH]; simpl; [tauto|].
    intros Hnd Hin. inversion Hnd; subst. rewrite getattr_cons.
    destruct Hin as [He|Hin].
    - inversion He; subst. now rewrite String.eqb_refl.
    - destruct (String.eqb_spec k' k) as [->|Hne]; [|auto].
      exfalso. apply H1. change k with (fst (k, w)). now apply in_map.
  Qed.

  Lemma trav_getattr (f : string -> val -> option val) : forall c r k,
    trav f c = Some r ->
    match cd_getattr k c with
    | Some w => exists w', f k w = Some w' /\ cd_getattr k r = Some w'
    | None => cd_getattr k r = None
    end.
  Proof.
    induction c as [|[k' v] c IH]; simpl; intros r k H.
    - inversion H; reflexivity.
    - destruct (f k' v) as [v'|] eqn:Ev; [|discriminate].
      destruct (trav f c) as [r'|] eqn:Er; [|discriminate].
      inversion H; subst. rewrite !getattr_cons.
      destruct (String.eqb_spec k' k) as [->|Hne].
      + exists v'; auto.
      + apply IH; auto.
  Qed.

  Lemma getitem_dyn ix (c : kvs) :
    getitem_val ix (VCd false c) = option_map (VCd false) (trav (fun _ => getitem_val ix) c).
  Proof.
    simpl. f_equal. induction c as [|[k w] c IH]; simpl; auto. rewrite IH. reflexivity.
  Qed.

  Lemma getitem_path ix : forall p (v v' : val),
    getitem_val ix v = Some v' ->
    forall w, dyn_path v p = Some w -> indexed_as ix w (at_path v' p).
  Proof.
    induction p as [|k p IH]; intros v v' Hg w Hd.
    - simpl in *. inversion Hd; subst w. clear Hd.
      destruct v as [[x|tr rows]|x|o|[|] c].
      1, 3, 4, 5: simpl in *; congruence.
      + simpl in *. destruct (index_rows ix tr rows) as [a|]; [|discriminate].
        exists a; split; [reflexivity|]. simpl in Hg. congruence.
      + rewrite getitem_dyn in Hg.
        destruct (trav (fun _ => getitem_val ix) c) as [r|] eqn:Er; [|discriminate].
        inversion Hg; subst. exists r. split; [reflexivity|]. eapply trav_keys; eauto.
    - destruct v as [a|x|o|[|] c]; try discriminate.
      rewrite getitem_dyn in Hg.
      destruct (trav (fun _ => getitem_val ix) c) as [r|] eqn:Er; [|discriminate].
      inversion Hg; subst. cbn [dyn_path at_path] in *.
      pose proof (trav_getattr _ _ _ k Er) as Ht.
      destruct (cd_getattr k c) as [u|]; [|discriminate].
      destruct Ht as (u' & Hu & Hr). rewrite Hr. eapply IH; eauto.
  Qed.

  Lemma wf_dyn b (c : kvs) : wf (VCd b c) <-> NoDup (map fst c) /\ Forall (fun kv => wf (snd kv)) c.
  Proof.
    simpl. split; intros [H1 H2]; split; auto; clear H1.
    - induction c as [|[k v] c IH]; constructor; simpl in *; tauto.
    - induction H2 as [|[k v] c Hv _ IH]; simpl in *; auto.
  Qed.

  Lemma trav_none {A B} (f : string -> A -> option B) l :
    trav f l = None -> exists k w, In (k, w) l /\ f k w = None.
  Proof.
    induction l as [|[k w] l IH]; simpl; [discriminate|].
    destruct (f k w) eqn:E.
    - destruct (trav f l); [discriminate|]. intros _. destruct IH as (k' & w' & Hin & Hf); auto.
      exists k', w'; auto.
    - intros _. exists k, w; auto.
  Qed.

  Lemma getitem_error ix : forall (v : val), wf v ->
    (getitem_val ix v = None <->
     exists p tr rows, dyn_path v p = Some (VArr (AN tr rows)) /\ index_rows ix tr rows = None).
  Proof.
    induction v as [a|x|o|b c IH] using val_ind'; intros Hwf.
    - destruct a as [x|tr rows]; simpl.
      + split; [discriminate|]. intros (p & tr & rows & Hp & _).
        destruct p; simpl in Hp; congruence.
      + split.
        * intros H. exists [], tr, rows. split; [reflexivity|].
          destruct (index_rows ix tr rows); [discriminate|auto].
        * intros (p & tr' & rows' & Hp & Hn). destruct p; simpl in Hp; [|discriminate].
          inversion Hp; subst. now rewrite Hn.
    - simpl. split; [discriminate|]. intros (p & tr & rows & Hp & _). destruct p; simpl in Hp; congruence.
    - simpl. split; [discriminate|]. intros (p & tr & rows & Hp & _). destruct p; simpl in Hp; congruence.
    - destruct b.
      + simpl. split; [discriminate|]. intros (p & tr & rows & Hp & _). destruct p; simpl in Hp; congruence.
      + apply wf_dyn in Hwf. destruct Hwf as [Hnd Hall]. rewrite getitem_dyn. split.
        * intros H. destruct (trav (fun _ => getitem_val ix) c) eqn:E; [discriminate|].
          apply trav_none in E. destruct E as (k & w & Hin & Hw).
          rewrite Forall_forall in IH, Hall.
          apply (IH _ Hin (Hall _ Hin)) in Hw. destruct Hw as (p & tr & rows & Hp & Hn).
          exists (k :: p), tr, rows. split; [|exact Hn].
          cbn [dyn_path]. rewrite (getattr_nodup _ _ _ Hnd Hin). exact Hp.
        * intros (p & tr & rows & Hp & Hn). destruct p as [|k p]; [discriminate|].
          cbn [dyn_path] in Hp. destruct (cd_getattr k c) as [w|] eqn:Ek; [|discriminate].
          pose proof (getattr_in _ _ _ Ek) as Hin.
          rewrite Forall_forall in IH, Hall.
          assert (Hw : getitem_val ix w = None).
          { apply (IH _ Hin (Hall _ Hin)). exists p, tr, rows; auto. }
          destruct (trav (fun _ => getitem_val ix) c) as [r|] eqn:E; [|reflexivity].
          pose proof (trav_getattr _ _ _ k E) as Ht. rewrite Ek in Ht.
          destruct Ht as (w' & Hw' & _). congruence.
  Qed.

  (** Gathering twice is gathering once with the composed indices. *)
  Definition idx (l : list nat) : index := IArr (map Z.of_nat l).

  Lemma norm_index_nat n i : i < n -> norm_index n (Z.of_nat i) = i.
  Proof.
    intros H. unfold norm_index.
    destruct (Z.ltb_spec (Z.of_nat i) 0); [lia|]. lia.
  Qed.

  Lemma gather_nat {A} (l : list nat) (rows : list A) d :
    Forall (fun i => i < length rows) l ->
    gather_rows (map Z.of_nat l) rows = Some (map (fun i => nth i rows d) l).
  Proof.
    intros H. destruct rows as [|r0 rows].
    - destruct l as [|i l]; [reflexivity|]. inversion H; subst. simpl in *; lia.
    - unfold gather_rows. f_equal. rewrite map_map. apply map_ext_in. intros i Hi.
      rewrite Forall_forall in H. specialize (H _ Hi).
      rewrite norm_index_nat by exact H. apply nth_indep. exact H.
  Qed.

  Definition rows_ok (n : nat) : val -> Prop :=
    fix ok (v : val) : Prop :=
      match v with
      | VArr (AN _ rows) => length rows = n
      | VCd false c => (fix all (l : kvs) : Prop :=
                          match l with [] => True | (_, w) :: l' => ok w /\ all l' end) c
      | _ => True
      end.

  Lemma rows_ok_dyn n (c : kvs) : rows_ok n (VCd false c) <-> Forall (fun kv => rows_ok n (snd kv)) c.
  Proof.
    simpl. split; intros H.
    - induction c as [|[k v] c IH]; constructor; simpl in *; tauto.
    - induction H as [|[k v] c Hv _ IH]; simpl in *; auto.
  Qed.

  (* equivalence with paths, so that statements can use paths *)
  Lemma rows_ok_path n : forall v : val, wf v ->
    (rows_ok n v <-> forall p tr rows, dyn_path v p = Some (VArr (AN tr rows)) -> length rows = n).
  Proof.
    induction v as [a|x|o|b c IH] using val_ind'; intros Hwf.
    - destruct a as [x|tr rows]; simpl; split; auto.
      + intros _ [|k p] tr rows H; simpl in H; congruence.
      + intros H [|k p] tr' rows' Hp; simpl in Hp; congruence.
      + intros H. apply (H [] tr rows eq_refl).
    - simpl; split; auto. intros _ [|k p] tr rows H; simpl in H; congruence.
    - simpl; split; auto. intros _ [|k p] tr rows H; simpl in H; congruence.
    - destruct b.
      + simpl; split; auto. intros _ [|k p] tr rows H; simpl in H; congruence.
      + apply wf_dyn in Hwf. destruct Hwf as [Hnd Hall].
        rewrite rows_ok_dyn. rewrite Forall_forall in IH, Hall. rewrite Forall_forall. split.
        * intros H [|k p] tr rows Hp; [discriminate|]. cbn [dyn_path] in Hp.
          destruct (cd_getattr k c) as [w|] eqn:Ek; [|discriminate].
          pose proof (getattr_in _ _ _ Ek) as Hin.
          eapply (IH _ Hin (Hall _ Hin)); [apply (H _ Hin)|exact Hp].
        * intros H [k w] Hin. apply (IH _ Hin (Hall _ Hin)). intros p tr rows Hp.
          apply (H (k :: p) tr rows). cbn [dyn_path]. now rewrite (getattr_nodup _ _ _ Hnd Hin).
  Qed.

  Lemma getitem_idx_total n l : Forall (fun i => i < n) l ->
    forall v : val, rows_ok n v -> exists v', getitem_val (idx l) v = Some v' /\ rows_ok (length l) v'.
  Proof.
    intros Hl. induction v as [a|x|o|b c IH] using val_ind'; intros Hok.
    - destruct a as [x|tr rows]; [eexists; split; [reflexivity|exact I]|].
      simpl in *. subst n. destruct rows as [|r0 rows].
      + destruct l as [|i l]; [|inversion Hl; subst; simpl in *; lia]. simpl.
        eexists; split; [reflexivity|reflexivity].
      + rewrite (gather_nat l (r0 :: rows) r0) by exact Hl. simpl.
        eexists; split; [reflexivity|]. simpl. now rewrite map_length.
    - eexists; split; [reflexivity|exact I].
    - eexists; split; [reflexivity|exact I].
    - destruct b; [eexists; split; [reflexivity|exact I]|].
      rewrite rows_ok_dyn in Hok. rewrite getitem_dyn.
      assert (H : exists r, trav (fun _ => getitem_val (idx l)) c = Some r /\ Forall (fun kv => rows_ok (length l) (snd kv)) r).
      { clear -IH Hok. induction c as [|[k w] c IHc]; simpl; [eauto|].
        inversion IH; inversion Hok; subst; simpl in *.
        destruct (H1 H5) as (w' & -> & Hw'). destruct IHc as (r & -> & Hr); auto.
        eexists; split; [reflexivity|]. constructor; auto. }
      destruct H as (r & -> & Hr). eexists; split; [reflexivity|]. now apply rows_ok_dyn.
  Qed.

  Lemma getitem_compose n l1 l2 :
    Forall (fun i => i < n) l1 -> Forall (fun i => i < length l1) l2 ->
    forall v : val, rows_ok n v ->
    forall v', getitem_val (idx l1) v = Some v' ->
    getitem_val (idx l2) v' = getitem_val (idx (map (fun j => nth j l1 0) l2)) v.
  Proof.
    intros H1 H2. induction v as [a|x|o|b c IH] using val_ind'; intros Hok v' Hv'.
    - destruct a as [x|tr rows]; [simpl in *; inversion Hv'; reflexivity|].
      simpl in Hok. subst n. unfold idx in *. cbn [getitem_val index_rows] in *.
      destruct rows as [|r0 rows].
      + destruct l1 as [|i l1]; [|inversion H1; subst; simpl in *; lia].
        destruct l2 as [|j l2]; [|inversion H2; subst; simpl in *; lia].
        simpl in *. inversion Hv'. reflexivity.
      + rewrite (gather_nat l1 (r0 :: rows) r0) in Hv' by exact H1.
        simpl in Hv'. inversion Hv'; subst v'; clear Hv'.
        cbn [getitem_val index_rows].
        rewrite (gather_nat l2 _ r0) by (rewrite map_length; exact H2).
        rewrite (gather_nat (map (fun j => nth j l1 0) l2) (r0 :: rows) r0).
        2:{ rewrite Forall_map. eapply Forall_impl; [|exact H2]. intros j Hj.
            rewrite Forall_forall in H1. apply H1. now apply nth_In. }
        simpl. do 3 f_equal. rewrite map_map. apply map_ext_in. intros j Hj.
        rewrite Forall_forall in H2. specialize (H2 _ Hj).
        pose (f := fun i => nth i (r0 :: rows) r0).
        change (nth j (map f l1) r0 = f (nth j l1 0)).
        rewrite (nth_indep _ r0 (f 0)) by (rewrite map_length; exact H2).
        apply map_nth.
    - simpl in *. inversion Hv'; reflexivity.
    - simpl in *. inversion Hv'; reflexivity.
    - destruct b; [simpl in *; inversion Hv'; reflexivity|].
      rewrite rows_ok_dyn in Hok. rewrite getitem_dyn in Hv'.
      destruct (trav (fun _ => getitem_val (idx l1)) c) as [r|] eqn:Er; [|discriminate].
      inversion Hv'; subst v'. rewrite !getitem_dyn. f_equal. clear Hv'.
      revert r Er. induction c as [|[k w] c IHc]; simpl; intros r Er.
      + inversion Er; reflexivity.
      + inversion IH; inversion Hok; subst; simpl in *.
        destruct (getitem_val (idx l1) w) as [w'|] eqn:Ew; [|discriminate].
        destruct (trav (fun _ => getitem_val (idx l1)) c) as [r'|] eqn:Er'; [|discriminate].
        inversion Er; subst. simpl. rewrite (H3 H7 _ eq_refl), (IHc H4 H8 _ eq_refl). reflexivity.
  Qed.

  (** * Addition *)
  Variable xadd : X -> X -> X.
  Variable oadd : O -> O -> option O.
  Notation add_val := (add_val xadd oadd).
  Notation cd_add := (cd_add xadd oadd).

  Definition add_attr (d : kvs) (k : string) (a : val) : option val :=
    match cd_getattr k d with
    | Some b => add_val (String.eqb k "time") a b
    | None => if existsb (String.eqb k) class_attrs then None else Some a
    end.

  Lemma add_cd t b (c : kvs) b' (d : kvs) :
    (b = false /\ b' = false) \/ t = true ->
    add_val t (VCd b c) (VCd b' d) = option_map (VCd false) (trav (add_attr d) c).
  Proof.
    intros H. assert (E : ((negb b && negb b') || t)%bool = true).
    { destruct H as [[-> ->]| ->]; [reflexivity|]. apply orb_true_r. }
    cbn [CdictModel.add_val is_array orb].
    replace (is_dyn (VCd b c) && is_dyn (VCd b' d))%bool with (negb b && negb b')%bool
      by (destruct b, b'; reflexivity).
    rewrite E. f_equal. clear.
    induction c as [|[k a] c IH]; [reflexivity|]. cbn [trav]. rewrite <- IH. reflexivity.
  Qed.

  Lemma cd_add_trav (c d : bool * kvs) :
    cd_add c (Some d) = option_map (VCd false) (trav (add_attr (snd d)) (snd c)).
  Proof.
    unfold CdictModel.cd_add. rewrite add_cd by auto. reflexivity.
  Qed.

  Lemma add_arr_arr t (a b : list nat * list (list X)) :
    add_val t (VArr (AN (fst a) (snd a))) (VArr (AN (fst b) (snd b)))
    = option_map VArr (append0 a b).
  Proof. destruct a, b; reflexivity. Qed.

  Lemma add_arr t tr (a b : list (list X)) :
    add_val t (VArr (AN tr a)) (VArr (AN tr b)) = Some (VArr (AN tr (a ++ b))).
  Proof.
    change (option_map VArr (append0 (tr, a) (tr, b)) = Some (VArr (O:=O) (AN tr (a ++ b)))).
    unfold append0. cbn [fst snd]. destruct (list_eq_dec Nat.eq_dec tr tr); [reflexivity|congruence].
  Qed.

  (** Same-kind values: simplified view of the nested fixpoint. *)
  Lemma same_kind_dyn (c d : kvs) :
    same_kind (VCd false c) (VCd false d)
    <-> Forall2 (fun x y => fst x = fst y /\ same_kind (snd x) (snd y)) c d.
  Proof.
    simpl. revert d. induction c as [|[k a] c IH]; intros [|[k' b] d].
    - split; intros; [constructor|exact I].
    - split; intros H; [destruct H|inversion H].
    - split; intros H; [destruct H|inversion H].
    - split; intros H.
      + constructor; simpl; [tauto|]. apply IH. tauto.
      + inversion H; subst; simpl in *. rewrite IH. tauto.
  Qed.

  Lemma same_kind_keys (c d : kvs) :
    Forall2 (fun x y => fst x = fst y /\ same_kind (snd x) (snd y)) c d -> map fst c = map fst d.
  Proof. induction 1 as [|[k a] [k' b] c d [H1 H2] _ IH]; simpl in *; congruence. Qed.

  Lemma Forall2_getattr (R : val -> val -> Prop) (c d : kvs) k :
    Forall2 (fun x y => fst x = fst y /\ R (snd x) (snd y)) c d ->
    match cd_getattr k c, cd_getattr k d with
    | Some a, Some b => R a b
    | None, None => True
    | _, _ => False
    end.
  Proof.
    induction 1 as [|[k1 a] [k2 b] c d [H1 H2] _ IH]; [exact I|].
    simpl in H1; subst. rewrite !getattr_cons. destruct (String.eqb k2 k); auto.
  Qed.

  (** trav on a duplicate-free list against aligned list = pointwise zip *)
  Fixpoint zip_add (l m : kvs) : option kvs :=
    match l, m with
    | (k, a) :: l', (_, b) :: m' =>
        match add_val (String.eqb k "time") a b, zip_add l' m' with
        | Some w, Some r => Some ((k, w) :: r)
        | _, _ => None
        end
    | _, _ => Some []
    end.

  Lemma trav_add_zip (c d : kvs) :
    NoDup (map fst c) -> map fst c = map fst d ->
    trav (add_attr d) c = zip_add c d.
  Proof.
    intros Hnd Hk.
    assert (H : forall c0 d0 pre, map fst c0 = map fst d0 -> d = (pre ++ d0)%list ->
                NoDup (map fst d) -> trav (add_attr d) c0 = zip_add c0 d0).
    { induction c0 as [|[k a] c0 IH]; intros [|[k' b] d0] pre He Hd Hn; simpl in *; try discriminate; auto.
      inversion He; subst k'.
      assert (Hb : cd_getattr k d = Some b).
      { apply getattr_nodup; auto. subst d. apply in_or_app. right. now left. }
      unfold add_attr at 1. rewrite Hb.
      rewrite (IH d0 (pre ++ [(k, b)])%list); auto.
      rewrite <- app_assoc. exact Hd. }
    apply (H c d []); auto. now rewrite <- Hk.
  Qed.

  Definition time_ok (t : bool) (v : val) : Prop :=
    t = true -> match v with VArr _ => True | VCd false _ => True | _ => False end.

  Lemma splittable_dyn (c : kvs) :
    splittable (VCd false c)
    <-> Forall (fun kv => splittable (snd kv) /\ time_ok (String.eqb (fst kv) "time") (snd kv)) c.
  Proof.
    simpl. split; intros H.
    - induction c as [|[k v] c IH]; constructor; simpl in *; [|tauto].
      split; [tauto|]. intros E. apply String.eqb_eq in E. destruct H as (_ & H & _). exact (H E).
    - induction H as [|[k v] c [H1 H2] _ IH]; simpl in *; auto.
      split; [auto|]. split; [|auto]. intros ->. apply H2. reflexivity.
  Qed.

  Lemma add_total : forall (v w : val) t, wf v -> wf w -> splittable v -> same_kind v w -> time_ok t v ->
    exists u, add_val t v w = Some u /\ same_kind v u /\ same_kind u w /\ wf u /\ splittable u.
  Proof.
    induction v as [a|x|o|b c IH] using val_ind'; intros w t Hv Hw Hsp Hs Ht.
    - destruct a as [x|tr rows]; [destruct w as [[]| | |[|] ?]; simpl in Hs; tauto|].
      destruct w as [[y|tr' rows']| | |[|] ?]; simpl in Hs; try tauto. subst tr'.
      simpl. unfold append0; simpl. destruct (list_eq_dec Nat.eq_dec tr tr); [|congruence].
      eexists; split; [reflexivity|]. simpl; repeat split; auto.
    - destruct w as [[]| | |[|] ?]; simpl in Hs; try tauto.
      destruct t; [destruct (Ht eq_refl)|]. simpl. eexists; split; [reflexivity|simpl; repeat split; auto].
    - destruct w as [[]| | |[|] ?]; simpl in Hs; try tauto.
      destruct t; [destruct (Ht eq_refl)|]. simpl. eexists; split; [reflexivity|simpl; repeat split; auto].
    - destruct b.
      + destruct t; [destruct (Ht eq_refl)|]. destruct w as [[]| | |[|] d]; simpl in Hs; try tauto.
        exists (VCd true c). split; [reflexivity|]. repeat split; auto; apply Hv.
      + destruct w as [[]| | |[|] d]; try (simpl in Hs; tauto).
        rewrite add_cd by auto. apply same_kind_dyn in Hs. apply splittable_dyn in Hsp.
        apply wf_dyn in Hv, Hw. destruct Hv as [Hn1 Hf1], Hw as [Hn2 Hf2].
        rewrite trav_add_zip by (auto; now apply same_kind_keys).
        assert (Hz : exists r, zip_add c d = Some r
          /\ Forall2 (fun x y => fst x = fst y /\ same_kind (snd x) (snd y)) c r
          /\ Forall2 (fun x y => fst x = fst y /\ same_kind (snd x) (snd y)) r d
          /\ Forall (fun kv => wf (snd kv)) r
          /\ Forall (fun kv => splittable (snd kv) /\ time_ok (String.eqb (fst kv) "time") (snd kv)) r).
        { clear Hn1 Hn2 Ht. induction Hs as [|[k a] [k' b] c d [Hk Hab] Hs IHs].
          - exists []. simpl. repeat split; constructor.
          - simpl in Hk. subst k'. inversion IH; inversion Hf1; inversion Hf2; inversion Hsp; subst.
            simpl in *.
            destruct (H1 b (String.eqb k "time")) as (u & Hu & S1 & S2 & W & SP); try tauto.
            destruct IHs as (r & Hr & F1 & F2 & F3 & F4); auto.
            cbn [zip_add]. rewrite Hu, Hr.
            exists ((k, u) :: r). repeat split; try (constructor; simpl; auto; fail).
            constructor; auto. simpl. split; auto.
            intros E. destruct H13 as [_ T]. specialize (T E).
            destruct a as [[]| | |[|] ?], u as [[]| | |[|] ?]; simpl in *; tauto. }
        destruct Hz as (r & -> & F1 & F2 & F3 & F4).
        exists (VCd false r). split; [reflexivity|].
        rewrite !same_kind_dyn, splittable_dyn, wf_dyn.
        repeat split; auto. rewrite <- (same_kind_keys _ _ F1). exact Hn1.
  Qed.

  Lemma same_kind_trans : forall u v w : val, same_kind u v -> same_kind v w -> same_kind u w.
  Proof.
    induction u as [a|x|o|b c IH] using val_ind'; intros v w H1 H2.
    - destruct a, v as [[]| | |[|] ?], w as [[]| | |[|] ?]; simpl in *; try tauto; congruence.
    - destruct v as [[]| | |[|] ?], w as [[]| | |[|] ?]; simpl in *; tauto.
    - destruct v as [[]| | |[|] ?], w as [[]| | |[|] ?]; simpl in *; tauto.
    - destruct b; destruct v as [[]| | |[|] d]; try (simpl in *; tauto);
        destruct w as [[]| | |[|] e]; try (simpl in *; tauto).
      rewrite same_kind_dyn in *. revert e H2.
      induction H1 as [|x y c d [Hk Hxy] H1 IHc]; intros e H2; inversion H2; subst; constructor.
      + inversion IH; subst. split; [destruct H3; congruence|]. eapply H4; [exact Hxy|apply H3].
      + inversion IH; subst. apply IHc; auto.
  Qed.

  Lemma add_assoc : forall (v w z : val) t,
    wf v -> wf w -> wf z -> splittable v -> splittable w -> same_kind v w -> same_kind w z ->
    time_ok t v -> time_ok t w ->
    exists u s, add_val t v w = Some u /\ add_val t w z = Some s /\ add_val t u z = add_val t v s.
  Proof.
    induction v as [a|x|o|b c IH] using val_ind'; intros w z t Wv Ww Wz Pv Pw S1 S2 T1 T2.
    - destruct (add_total (VArr a) w t) as (u & Hu & _); auto.
      destruct (add_total w z t) as (s & Hs & _); auto.
      exists u, s. split; [exact Hu|]. split; [exact Hs|].
      destruct a as [x|tr rows]; [simpl in Pv; tauto|].
      destruct w as [[y|tr' rows']| | |[|] ?]; simpl in S1; try tauto. subst tr'.
      destruct z as [[y|tr' rows'']| | |[|] ?]; simpl in S2; try tauto. subst tr'.
      rewrite add_arr in Hu, Hs. inversion Hu; inversion Hs; subst.
      rewrite !add_arr. now rewrite app_assoc.
    - destruct w as [[]| | |[|] ?]; simpl in S1; try tauto.
      destruct z as [[]| | |[|] ?]; simpl in S2; try tauto.
      destruct t; [destruct (T1 eq_refl)|]. do 2 eexists; repeat split; reflexivity.
    - destruct w as [[]| | |[|] ?]; simpl in S1; try tauto.
      destruct z as [[]| | |[|] ?]; simpl in S2; try tauto.
      destruct t; [destruct (T1 eq_refl)|]. do 2 eexists; repeat split; reflexivity.
    - destruct b.
      + destruct w as [[]| | |[|] ?]; simpl in S1; try tauto.
        destruct z as [[]| | |[|] ?]; simpl in S2; try tauto.
        destruct t; [destruct (T1 eq_refl)|]. do 2 eexists; repeat split; reflexivity.
      + destruct w as [[]| | |[|] d]; try (simpl in S1; tauto).
        destruct z as [[]| | |[|] e]; try (simpl in S2; tauto).
        destruct (add_total (VCd false c) (VCd false d) t) as (u & Hu & U1 & U2 & Wu & Pu); auto.
        destruct (add_total (VCd false d) (VCd false e) t) as (s & Hs & V1 & V2 & Ws & Ps); auto.
        exists u, s. split; [exact Hu|]. split; [exact Hs|].
        destruct u as [[]| | |[|] r]; try (simpl in U1; tauto).
        destruct s as [[]| | |[|] q]; try (simpl in V1; tauto).
        rewrite add_cd in Hu, Hs by auto. rewrite !add_cd by auto.
        rewrite same_kind_dyn in *. rewrite splittable_dyn in *. rewrite wf_dyn in *.
        assert (K1 : map fst c = map fst d) by now apply same_kind_keys.
        assert (K2 : map fst d = map fst e) by now apply same_kind_keys.
        assert (K3 : map fst c = map fst r) by now apply same_kind_keys.
        assert (K4 : map fst d = map fst q) by now apply same_kind_keys.
        rewrite trav_add_zip in Hu by (try apply Wv; auto).
        rewrite trav_add_zip in Hs by (try apply Ww; auto).
        rewrite !trav_add_zip by (try apply Wu; try apply Wv; congruence).
        f_equal.
        destruct (zip_add c d) as [r'|] eqn:Er; [|discriminate]. inversion Hu; subst r'; clear Hu.
        destruct (zip_add d e) as [q'|] eqn:Eq; [|discriminate]. inversion Hs; subst q'; clear Hs.
        destruct Wv as [_ Wv], Ww as [_ Ww], Wz as [_ Wz].
        clear -IH Wv Ww Wz Pv Pw S1 S2 Er Eq.
        revert e S2 Wz r q Er Eq.
        induction S1 as [|[k a] [k' b] c d [Hk Hab] S1 IHs]; intros e S2 Wz r q Er Eq.
        { simpl in *. inversion Er; subst. reflexivity. }
        simpl in Hk; subst k'.
        inversion S2 as [|? [k' g] ? e' [Hk' Hbg] S2']; subst. simpl in Hk'; subst k'.
        inversion IH; inversion Wv; inversion Ww; inversion Wz; inversion Pv; inversion Pw; subst.
        simpl in *.
        destruct (H1 b g (String.eqb k "time")) as (u & s & Hu & Hs & He); try tauto.
        rewrite Hu in Er. rewrite Hs in Eq.
        destruct (zip_add c d) as [r'|] eqn:Er'; [|discriminate].
        destruct (zip_add d e') as [q'|] eqn:Eq'; [|discriminate].
        inversion Er; inversion Eq; subst. cbn [zip_add]. rewrite He.
        rewrite (IHs H2 H6 H10 H18 H22 e' S2' H14 r' q' eq_refl Eq'). reflexivity.
  Qed.

  (** Splitting and rejoining. *)
  Definition head (k : nat) : index := ISlice None (Some (Z.of_nat k)).
  Definition tail (k : nat) : index := ISlice (Some (Z.of_nat k)) None.

  Lemma norm_bound_nat n k : norm_bound n (Z.of_nat k) = Nat.min k n.
  Proof. unfold norm_bound. destruct (Z.ltb_spec (Z.of_nat k) 0); lia. Qed.

  Lemma slice_head {A} k (rows : list A) : slice_rows None (Some (Z.of_nat k)) rows = firstn k rows.
  Proof.
    unfold slice_rows. rewrite norm_bound_nat, Nat.sub_0_r. simpl.
    destruct (Nat.min_spec k (length rows)) as [[H ->]|[H ->]]; [reflexivity|].
    rewrite firstn_all. symmetry. now apply firstn_all2.
  Qed.

  Lemma slice_tail {A} k (rows : list A) : slice_rows (Some (Z.of_nat k)) None rows = skipn k rows.
  Proof.
    unfold slice_rows. rewrite norm_bound_nat.
    destruct (Nat.min_spec k (length rows)) as [[H ->]|[H ->]].
    - rewrite <- skipn_length. apply firstn_all.
    - rewrite Nat.sub_diag. simpl. symmetry. now apply skipn_all2.
  Qed.

  Lemma split_rejoin k : forall (v : val) t, wf v -> splittable v -> time_ok t v ->
    exists a b, getitem_val (head k) v = Some a /\ getitem_val (tail k) v = Some b
      /\ wf a /\ wf b /\ same_kind v a /\ same_kind v b
      /\ add_val t a b = Some v.
  Proof.
    induction v as [a|x|o|b c IH] using val_ind'; intros t W P T.
    - destruct a as [x|tr rows]; [simpl in P; tauto|].
      unfold head, tail. cbn [getitem_val index_rows option_map]. rewrite slice_head, slice_tail.
      do 2 eexists. split; [reflexivity|]. split; [reflexivity|]. split; [exact I|]. split; [exact I|].
      split; [reflexivity|]. split; [reflexivity|]. rewrite add_arr. now rewrite firstn_skipn.
    - destruct t; [destruct (T eq_refl)|]. do 2 eexists. repeat split.
    - destruct t; [destruct (T eq_refl)|]. do 2 eexists. repeat split.
    - destruct b.
      + destruct t; [destruct (T eq_refl)|]. do 2 eexists. repeat split; apply W.
      + rewrite !getitem_dyn. rewrite splittable_dyn in P. rewrite wf_dyn in W.
        destruct W as [Hnd W].
        assert (H : exists r q, trav (fun _ => getitem_val (head k)) c = Some r
          /\ trav (fun _ => getitem_val (tail k)) c = Some q
          /\ Forall (fun kv => wf (snd kv)) r /\ Forall (fun kv => wf (snd kv)) q
          /\ Forall2 (fun x y => fst x = fst y /\ same_kind (snd x) (snd y)) c r
          /\ Forall2 (fun x y => fst x = fst y /\ same_kind (snd x) (snd y)) c q
          /\ zip_add r q = Some c).
        { clear Hnd T. induction c as [|[k' v] c IHc].
          - exists [], []. repeat split; constructor.
          - inversion IH; inversion W; inversion P; subst. simpl in *.
            destruct (H1 (String.eqb k' "time")) as (a & b & Ha & Hb & Wa & Wb & Sa & Sb & Hab); try tauto.
            destruct IHc as (r & q & Hr & Hq & F1 & F2 & F3 & F4 & Hz); auto.
            rewrite Ha, Hb, Hr, Hq. exists ((k', a) :: r), ((k', b) :: q).
            repeat split; try (constructor; simpl; auto; fail).
            simpl. rewrite Hab. rewrite Hz. reflexivity. }
        destruct H as (r & q & -> & -> & F1 & F2 & F3 & F4 & Hz).
        exists (VCd false r), (VCd false q). cbn [option_map].
        rewrite !wf_dyn, !same_kind_dyn.
        assert (K1 : map fst c = map fst r) by now apply same_kind_keys.
        assert (K2 : map fst c = map fst q) by now apply same_kind_keys.
        rewrite <- K1, <- K2.
        repeat split; auto.
        rewrite add_cd by auto. rewrite trav_add_zip, Hz; [reflexivity| |congruence].
        now rewrite <- K1.
  Qed.

  (** Attribute view of addition *)
  Lemma add_attrs (c d : bool * kvs) v :
    cd_add c (Some d) = Some v ->
    exists r, v = VCd false r /\ map fst r = map fst (snd c)
      /\ forall k,
         match cd_getattr k (snd c), cd_getattr k (snd d) with
         | None, _ => cd_getattr k r = None
         | Some a, None => cd_getattr k r = Some a
         | Some a, Some b => exists w, cd_getattr k r = Some w /\ add_val (String.eqb k "time") a b = Some w
         end.
  Proof.
    rewrite cd_add_trav. intros H.
    destruct (trav (add_attr (snd d)) (snd c)) as [r|] eqn:Er; [|discriminate].
    inversion H; subst. exists r. split; [reflexivity|]. split; [eapply trav_keys; eauto|].
    intros k. pose proof (trav_getattr _ _ _ k Er) as Ht.
    destruct (cd_getattr k (snd c)) as [a|]; [|exact Ht].
    destruct Ht as (w & Hw & Hr). unfold add_attr in Hw.
    destruct (cd_getattr k (snd d)) as [b|]; [eauto|].
    destruct (existsb _ _); [discriminate|]. congruence.
  Qed.

  (** * Flattening *)
  Lemma structure_dyn (c : kvs) :
    structure (VCd false c) = TNode (map (fun kv => (fst kv, structure (snd kv))) c).
  Proof. reflexivity. Qed.

  (* mapping a function over leaves, directly on the tree *)
  Fixpoint map_leaves (f : val -> val) (v : val) : val :=
    match v with
    | VCd false c => VCd false (map (fun kv => (fst kv, map_leaves f (snd kv))) c)
    | _ => f v
    end.

  Lemma unflatten_map f : forall (v : val) rest,
    unflatten (structure v) (map f (leaves v) ++ rest) = Some (map_leaves f v, rest).
  Proof.
    induction v as [a|x|o|b c IH] using val_ind'; intros rest; try reflexivity.
    destruct b; [reflexivity|].
    rewrite structure_dyn. cbn [unflatten].
    match goal with |- match ?G ?L ?S with _ => _ end = _ =>
      assert (H : G L S = Some (map (fun kv => (fst kv, map_leaves f (snd kv))) c, rest)) end.
    { cbn [leaves]. induction c as [|[k v] c IHc]; [reflexivity|].
      inversion IH; subst. simpl in H1. cbn [map flat_map fst snd].
      rewrite map_app, <- app_assoc, H1. rewrite (IHc H2). reflexivity. }
    rewrite H. reflexivity.
  Qed.

  Lemma map_leaves_id : forall v : val, map_leaves (fun x => x) v = v.
  Proof.
    induction v as [a|x|o|b c IH] using val_ind'; try reflexivity.
    destruct b; [reflexivity|]. simpl. f_equal.
    induction IH as [|[k v] c Hv _ IHc]; simpl in *; congruence.
  Qed.

  Lemma flatten_roundtrip (v : val) rest : unflatten (structure v) (leaves v ++ rest) = Some (v, rest).
  Proof.
    pose proof (unflatten_map (fun x => x) v rest) as H.
    now rewrite map_id, map_leaves_id in H.
  Qed.

  Lemma tree_map_path f : forall p (v w : val), dyn_path v p = Some w ->
    match w with
    | VCd false d => exists d', at_path (map_leaves f v) p = Some (VCd false d') /\ map fst d' = map fst d
    | _ => at_path (map_leaves f v) p = Some (f w)
    end.
  Proof.
    induction p as [|k p IH]; intros v w H.
    - simpl in H. inversion H; subst. destruct w as [[]| | |[|] d]; simpl; auto.
      eexists; split; [reflexivity|]. rewrite map_map. reflexivity.
    - destruct v as [| | |[|] c]; try discriminate. cbn [dyn_path] in H.
      cbn [map_leaves at_path].
      assert (E : forall c0 : kvs, cd_getattr k (map (fun kv => (fst kv, map_leaves f (snd kv))) c0)
                  = option_map (map_leaves f) (cd_getattr k c0)).
      { induction c0 as [|[k' u] c0 IHc]; [reflexivity|]. cbn [map fst snd].
        rewrite !getattr_cons. destruct (String.eqb k' k); auto. }
      rewrite E. destruct (cd_getattr k c) as [u|]; [|discriminate]. simpl. apply IH. exact H.
  Qed.
End P.

(** * The meaning of indices *)
Lemma norm_index_picks n i : n <> 0 -> picks n i (norm_index n i) /\ norm_index n i < n.
Proof.
  intros Hn. unfold norm_index.
  destruct (Z.ltb_spec i 0) as [Hi|Hi].
  - destruct (Z.ltb_spec i (- Z.of_nat n)) as [Hb|Hb].
    + replace (Z.to_nat _) with 0 by lia. split; [now constructor|lia].
    + replace i with (- Z.of_nat (Z.to_nat (- i)))%Z at 1 by lia.
      replace (Z.to_nat (Z.max 0 _)) with (n - Z.to_nat (- i)) by lia.
      split; [constructor; lia|lia].
  - destruct (Z.ltb_spec i (Z.of_nat n)) as [Hb|Hb].
    + replace i with (Z.of_nat (Z.to_nat i)) at 1 by lia.
      replace (Z.to_nat (Z.max 0 _)) with (Z.to_nat i) by lia.
      split; [constructor; lia|lia].
    + replace (Z.to_nat _) with (n - 1) by lia. split; [now constructor|lia].
Qed.

Lemma norm_bound_spec n i : bound n i (norm_bound n i).
Proof.
  unfold norm_bound.
  destruct (Z.ltb_spec i 0) as [Hi|Hi].
  - destruct (Z.ltb_spec i (- Z.of_nat n)) as [Hb|Hb].
    + replace (Z.to_nat _) with 0 by lia. now constructor.
    + replace i with (- Z.of_nat (Z.to_nat (- i)))%Z at 1 by lia.
      replace (Z.to_nat (Z.max 0 _)) with (n - Z.to_nat (- i)) by lia.
      constructor; lia.
  - destruct (Z.leb_spec i (Z.of_nat n)) as [Hb|Hb].
    + replace i with (Z.of_nat (Z.to_nat i)) at 1 by lia.
      replace (Z.to_nat (Z.max 0 _)) with (Z.to_nat i) by lia.
      constructor; lia.
    + replace (Z.to_nat _) with n by lia. now constructor.
Qed.

Lemma chunks_correct {X} n (tr' : list nat) (r : list X) :
  List.length r = n * fold_right Nat.mul 1 tr' ->
  let rs := chunks n (prod_list tr') r in
  List.length rs = n /\ concat rs = r /\ Forall (fun q => List.length q = fold_right Nat.mul 1 tr') rs.
Proof.
  unfold prod_list. generalize (fold_right Nat.mul 1 tr') as b. intros b. revert r.
  induction n as [|n IH]; intros r H; cbn [chunks].
  - cbn in H. destruct r; [|discriminate]. repeat split. constructor.
  - cbn [Nat.mul] in H.
    destruct (IH (skipn b r)) as (H1 & H2 & H3); [rewrite skipn_length; lia|].
    cbn zeta. cbn [List.length concat]. split; [now rewrite H1|].
    split; [rewrite H2; apply firstn_skipn|]. constructor; [rewrite firstn_length; lia|exact H3].
Qed.

Lemma nth_error_skipn_add {A} (l : list A) x k : nth_error (skipn x l) k = nth_error l (x + k).
Proof.
  revert l. induction x as [|x IH]; intros [|a l]; cbn [skipn Nat.add]; auto.
  - now destruct k.
  - cbn. apply IH.
Qed.
Lemma nth_error_firstn_lt {A} (l : list A) n k : k < n -> nth_error (firstn n l) k = nth_error l k.
Proof.
  revert l k. induction n as [|n IH]; intros [|a l] [|k] H; cbn; auto; try lia. apply IH. lia.
Qed.
