(** The chain assembled by [run] (sample.py 135-140):
    [initial_state[newaxis] + stack[:final]] is the stack of all the states. *)
From Coq Require Import String.
From Coq Require Import List Arith ZArith Bool Lia.
From Verif Require Import CdictModel CdictSpec CdictProofs.
Import ListNotations.
Open Scope string_scope.

Section P.
  Context {X O : Type}.
  Notation val := (val X O).
  Notation kvs := (list (string * val)).
  Variable xadd : X -> X -> X.
  Variable oadd : O -> O -> option O.
  Notation add_val := (CdictModel.add_val xadd oadd).

  Definition column (k : string) (vs : list val) : option (list val) :=
    sequence (map (fun v => match v with VCd false d => cd_getattr k d | _ => None end) vs).

  Definition stack_attr (vs : list val) (k : string) (p : val) : option val :=
    match column k vs with Some col => stack_vals p col | None => None end.

  Lemma stack_dyn (c : kvs) vs :
    stack_vals (VCd false c) vs = option_map (VCd false) (trav (stack_attr vs) c).
  Proof.
    cbn [stack_vals]. f_equal.
    induction c as [|[k p] c IH]; [reflexivity|]. cbn [trav]. rewrite <- IH.
    unfold stack_attr, column. destruct (sequence _) as [col|]; reflexivity.
  Qed.

  Lemma stack_cons : forall (v : val) vs s t, wf v -> stack_vals v vs = Some s ->
    exists n, getitem_val INew v = Some n /\ add_val t n s = stack_vals v (v :: vs)
              /\ add_val t n s <> None.
  Proof.
    induction v as [a|x|o|b c IH] using val_ind'; intros vs s t W Hs.
    - cbn [stack_vals as_arr] in Hs. cbn [map sequence].
      destruct (sequence (map as_arr vs)) as [l|] eqn:El; [|discriminate].
      destruct (stack_arrs a l) as [r|] eqn:Er; [|discriminate]. inversion Hs; subst s.
      cbn [stack_vals as_arr map sequence]. rewrite El. cbn [option_map].
      destruct a as [x|tr rows].
      + exists (VArr (A0 x)). split; [reflexivity|].
        cbn [stack_arrs] in *. cbn [fold_right].
        match type of Er with option_map _ ?F = _ => destruct F as [rs|] end; [|discriminate].
        inversion Er; subst r. split; [reflexivity|discriminate].
      + exists (VArr (AN (length rows :: tr) [concat rows])). split; [reflexivity|].
        cbn [stack_arrs] in *. cbn [fold_right].
        match type of Er with option_map _ ?F = _ => destruct F as [rs|] end; [|discriminate].
        inversion Er; subst r. rewrite add_arr.
        destruct (list_eq_dec Nat.eq_dec tr tr); [|congruence].
        destruct (Nat.eq_dec (length rows) (length rows)); [|congruence].
        split; [reflexivity|discriminate].
    - exists (VNum x). split; [reflexivity|].
      cbn [stack_vals as_arr map sequence] in *.
      destruct (sequence (map as_arr vs)) as [l|] eqn:El; [|discriminate].
      cbn [option_map stack_arrs fold_right] in *.
      match type of Hs with option_map _ (option_map _ ?F) = _ => destruct F as [rs|] end; [|discriminate].
      inversion Hs; subst s. split; [reflexivity|discriminate].
    - discriminate.
    - destruct b; [discriminate|].
      rewrite stack_dyn in *. rewrite getitem_dyn.
      destruct (trav (stack_attr vs) c) as [r|] eqn:Er; [|discriminate].
      inversion Hs; subst s. apply wf_dyn in W. destruct W as [Hnd W].
      assert (H : exists n, trav (fun _ => getitem_val INew) c = Some n
                  /\ zip_add xadd oadd n r = trav (stack_attr (VCd false c :: vs)) c
                  /\ zip_add xadd oadd n r <> None).
      { assert (G : forall c0 pre r0, c = (pre ++ c0)%list ->
                  Forall (fun kv => forall vs s t, wf (snd kv) -> stack_vals (snd kv) vs = Some s ->
                     exists n, getitem_val INew (snd kv) = Some n
                        /\ add_val t n s = stack_vals (snd kv) (snd kv :: vs) /\ add_val t n s <> None) c0 ->
                  Forall (fun kv => wf (snd kv)) c0 -> trav (stack_attr vs) c0 = Some r0 ->
                  exists n, trav (fun _ => getitem_val INew) c0 = Some n
                  /\ zip_add xadd oadd n r0 = trav (stack_attr (VCd false c :: vs)) c0
                  /\ zip_add xadd oadd n r0 <> None).
        { induction c0 as [|[k v] c0 IHc]; intros pre r0 Hc F1 F2 Hr.
          - cbn in *. inversion Hr; subst r0. exists []. repeat split. discriminate.
          - cbn [trav] in *. inversion F1; inversion F2; subst. clear F1 F2.
            destruct (stack_attr vs k v) as [sv|] eqn:Esv; [|discriminate].
            destruct (trav (stack_attr vs) c0) as [r1|] eqn:Er1; [|discriminate].
            inversion Hr; subst r0.
            unfold stack_attr in Esv.
            destruct (column k vs) as [col|] eqn:Ecol; [|discriminate].
            destruct (H1 _ _ (String.eqb k "time") H5 Esv) as (n & Hn & Hadd & Hne).
            destruct (IHc (pre ++ [(k, v)])%list r1) as (ns & Hns & Hz & Hzn); auto.
            { rewrite <- app_assoc. reflexivity. }
            cbn [snd] in *.
            exists ((k, n) :: ns). rewrite Hn, Hns. split; [reflexivity|].
            cbn [zip_add].
            assert (Ek : stack_attr (VCd false (pre ++ (k, v) :: c0) :: vs) k v = stack_vals v (v :: col)).
            { unfold stack_attr, column. cbn [map sequence].
              rewrite (getattr_nodup k _ v Hnd) by (apply in_or_app; right; now left).
              unfold column in Ecol. rewrite Ecol. reflexivity. }
            rewrite Ek, <- Hadd, <- Hz.
            split; [reflexivity|].
            destruct (add_val (k =? "time") n sv); [|congruence].
            destruct (zip_add xadd oadd ns r1); congruence. }
        apply (G c [] r); auto. }
      destruct H as (n & Hn & Hz & Hzn). rewrite Hn. exists (VCd false n). split; [reflexivity|].
      rewrite add_cd by auto.
      assert (K1 : map fst n = map fst c) by (eapply trav_keys; eauto).
      assert (K2 : map fst r = map fst c) by (eapply trav_keys; eauto).
      rewrite trav_add_zip by congruence.
      rewrite Hz. split; [reflexivity|]. rewrite <- Hz.
      destruct (zip_add xadd oadd n r); [discriminate|congruence].
  Qed.

  Lemma sequence_firstn {A} k : forall (l : list (option A)) r,
    sequence l = Some r -> sequence (firstn k l) = Some (firstn k r).
  Proof.
    induction k as [|k IH]; intros l r H; [reflexivity|].
    destruct l as [|[a|] l]; cbn in *; [inversion H; reflexivity| |discriminate].
    destruct (sequence l) as [r'|] eqn:E; [|discriminate]. inversion H; subst.
    rewrite (IH _ _ E). reflexivity.
  Qed.

  Lemma column_firstn k n vs col : column k vs = Some col -> column k (firstn n vs) = Some (firstn n col).
  Proof. unfold column. intros H. rewrite <- firstn_map. now apply sequence_firstn. Qed.

  Lemma fold_right_firstn {A B} (f : A -> option (list B) -> option (list B)) (g : A -> option B) :
    (forall a r, f a r = match g a, r with Some b, Some r' => Some (b :: r') | _, _ => None end) ->
    forall n l r, fold_right f (Some []) l = Some r -> fold_right f (Some []) (firstn n l) = Some (firstn n r).
  Proof.
    intros Hf. induction n as [|n IH]; intros l r H; [reflexivity|].
    destruct l as [|a l]; cbn in *; [inversion H; reflexivity|].
    rewrite Hf in H |- *. destruct (g a) as [b|]; [|discriminate].
    destruct (fold_right f (Some []) l) as [r'|] eqn:E; [|discriminate].
    inversion H; subst. rewrite (IH _ _ E). reflexivity.
  Qed.

  Lemma stack_arrs_firstn n (p : arr X) l a :
    stack_arrs p l = Some a ->
    option_map (VArr (O:=O)) (stack_arrs p (firstn n l)) = getitem_val (head n) (VArr a).
  Proof.
    destruct p as [x|tr rows]; unfold stack_arrs; intros H.
    - match type of H with option_map _ (fold_right ?f _ _) = _ =>
        pose proof (fold_right_firstn f (fun a => match a with A0 x => Some [x] | _ => None end)) as L;
        destruct (fold_right f (Some []) l) as [r|] eqn:E; [|discriminate] end.
      inversion H; subst a. rewrite (L ltac:(intros [] []; reflexivity) n l r E).
      unfold head. cbn [getitem_val index_rows option_map]. now rewrite slice_head.
    - match type of H with option_map _ (fold_right ?f _ _) = _ =>
        pose proof (fold_right_firstn f (fun a => match a with
             | AN tr' rows' => if list_eq_dec Nat.eq_dec tr tr'
                 then if Nat.eq_dec (length rows) (length rows')
                      then Some (concat rows') else None
                 else None
             | _ => None end)) as L;
        destruct (fold_right f (Some []) l) as [r|] eqn:E; [|discriminate] end.
      inversion H; subst a. rewrite (L) with (r := r); [| |exact E].
      + unfold head. cbn [getitem_val index_rows option_map]. now rewrite slice_head.
      + intros [x|tr' rows'] r0; [destruct r0; reflexivity|].
        destruct r0; destruct (list_eq_dec Nat.eq_dec tr tr'); try reflexivity;
        destruct (Nat.eq_dec (length rows) (length rows')); reflexivity.
  Qed.

  Lemma stack_firstn n : forall (v : val) vs s, wf v -> stack_vals v vs = Some s ->
    stack_vals v (firstn n vs) = getitem_val (head n) s /\ getitem_val (head n) s <> None.
  Proof.
    induction v as [a|x|o|b c IH] using val_ind'; intros vs s W Hs.
    - cbn [stack_vals as_arr] in *.
      destruct (sequence (map as_arr vs)) as [l|] eqn:El; [|discriminate].
      rewrite <- firstn_map, (sequence_firstn n _ _ El).
      destruct (stack_arrs a l) as [r|] eqn:Er; [|discriminate]. inversion Hs; subst s.
      rewrite (stack_arrs_firstn n _ _ _ Er). split; [reflexivity|].
      destruct r; cbn; discriminate.
    - cbn [stack_vals as_arr] in *.
      destruct (sequence (map as_arr vs)) as [l|] eqn:El; [|discriminate].
      rewrite <- firstn_map, (sequence_firstn n _ _ El).
      destruct (stack_arrs (A0 x) l) as [r|] eqn:Er; [|discriminate]. inversion Hs; subst s.
      rewrite (stack_arrs_firstn n _ _ _ Er). split; [reflexivity|].
      destruct r; cbn; discriminate.
    - discriminate.
    - destruct b; [discriminate|]. rewrite stack_dyn in *.
      destruct (trav (stack_attr vs) c) as [r|] eqn:Er; [|discriminate].
      inversion Hs; subst s. rewrite getitem_dyn. apply wf_dyn in W. destruct W as [_ W].
      assert (H : trav (stack_attr (firstn n vs)) c = trav (fun _ => getitem_val (head n)) r
                  /\ trav (fun _ => getitem_val (head n)) r <> None).
      { clear Hs. revert r Er. induction c as [|[k v] c IHc]; intros r Er; cbn [trav] in *.
        - inversion Er; subst. cbn. split; [reflexivity|discriminate].
        - inversion IH; inversion W; subst. cbn [snd] in *.
          destruct (stack_attr vs k v) as [sv|] eqn:Esv; [|discriminate].
          destruct (trav (stack_attr vs) c) as [r1|] eqn:Er1; [|discriminate].
          inversion Er; subst r. cbn [trav].
          destruct (IHc H2 H6 _ eq_refl) as [E1 E2]. rewrite E1.
          unfold stack_attr in *.
          destruct (column k vs) as [col|] eqn:Ecol; [|discriminate].
          rewrite (column_firstn _ n _ _ Ecol).
          destruct (H1 _ _ H5 Esv) as [E3 E4]. rewrite E3. split; [reflexivity|].
          destruct (getitem_val (head n) sv); [|congruence].
          destruct (trav (fun _ => getitem_val (head n)) r1); congruence. }
      destruct H as [H1 H2]. rewrite H1. split; [reflexivity|].
      destruct (trav (fun _ => getitem_val (head n)) r); [discriminate|congruence].
  Qed.

  (** The chain of a run: if the raw stack of all scan outputs [vs] exists
      then slicing it and prefixing the initial state gives the stack of the
      initial state and the first [n] outputs. *)
  Lemma chain_assembly (v : val) vs s n :
    wf v -> stack_vals v vs = Some s ->
    exists h sl, getitem_val INew v = Some h /\ getitem_val (head n) s = Some sl
      /\ add_val true h sl = stack_vals v (v :: firstn n vs)
      /\ add_val true h sl <> None.
  Proof.
    intros W Hs.
    destruct (stack_firstn n v vs s W Hs) as [E1 E2].
    destruct (getitem_val (head n) s) as [sl|] eqn:Esl; [|congruence].
    destruct (stack_cons v (firstn n vs) sl true W E1) as (h & Hh & Ha & Hne).
    exists h, sl. auto.
  Qed.
End P.
