(** Proofs about saving and loading. *)
From Coq Require Import List Arith Bool Ascii Lia.
From Verif Require Import SaveModel.
Import ListNotations.

Lemma name_eqb_eq a b : name_eqb a b = true <-> a = b.
Proof. unfold name_eqb. destruct (list_eq_dec ascii_dec a b); split; congruence. Qed.

Lemma rfind_dot_app a b :
  rfind_dot (a ++ b) = match rfind_dot b with
                       | Some i => Some (length a + i)
                       | None => rfind_dot a
                       end.
Proof.
  induction a as [|c a IH]; simpl.
  - destruct (rfind_dot b); reflexivity.
  - rewrite IH. destruct (rfind_dot b); reflexivity.
Qed.

Lemma rfind_dot_lt s i : rfind_dot s = Some i -> i < length s.
Proof.
  revert i. induction s as [|c s IH]; simpl; intros i H; [discriminate|].
  destruct (rfind_dot s) as [j|].
  - inversion H; subst. specialize (IH j eq_refl). lia.
  - destruct (Ascii.eqb c dot); inversion H; lia.
Qed.

Lemma suffix_append a : a <> [] -> suffix (a ++ cdict_suffix) = cdict_suffix.
Proof.
  intros Ha. unfold suffix. rewrite rfind_dot_app.
  change (rfind_dot cdict_suffix) with (Some 0). cbv iota.
  rewrite Nat.add_0_r, app_length.
  assert (0 < length a) by (destruct a; simpl; [congruence|lia]).
  change (length cdict_suffix) with 6.
  replace (0 <? length a) with true by (symmetry; apply Nat.ltb_lt; lia).
  replace (length a <? length a + 6 - 1) with true by (symmetry; apply Nat.ltb_lt; lia).
  cbn [andb]. rewrite skipn_app, skipn_all, Nat.sub_diag. reflexivity.
Qed.

(** The stem: the name without its suffix. *)
Definition stem (s : name) : name := firstn (length s - length (suffix s)) s.

Lemma stem_suffix s : s = stem s ++ suffix s.
Proof.
  unfold stem, suffix. destruct (rfind_dot s) as [i|] eqn:E.
  - destruct ((0 <? i) && (i <? length s - 1)).
    + rewrite skipn_length. apply rfind_dot_lt in E.
      replace (length s - (length s - i)) with i by lia. symmetry. apply firstn_skipn.
    + rewrite Nat.sub_0_r, firstn_all, app_nil_r. reflexivity.
  - rewrite Nat.sub_0_r, firstn_all, app_nil_r. reflexivity.
Qed.

Lemma stem_nonempty s : s <> [] -> stem s <> [].
Proof.
  intros Hs. unfold stem, suffix. destruct (rfind_dot s) as [i|] eqn:E.
  - destruct ((0 <? i) && (i <? length s - 1)) eqn:B.
    + apply andb_true_iff in B. destruct B as [B1 B2]. apply Nat.ltb_lt in B1, B2.
      rewrite skipn_length. replace (length s - (length s - i)) with i by lia.
      destruct i; [lia|]. destruct s; [congruence|]. discriminate.
    + rewrite Nat.sub_0_r, firstn_all. exact Hs.
  - rewrite Nat.sub_0_r, firstn_all. exact Hs.
Qed.

Lemma save_name_stem s : save_name s = stem s ++ cdict_suffix.
Proof.
  unfold save_name. destruct (name_eqb (suffix s) cdict_suffix) eqn:E.
  - apply name_eqb_eq in E. rewrite <- E. apply stem_suffix.
  - unfold with_suffix, stem. destruct (suffix s); [|reflexivity].
    simpl. rewrite Nat.sub_0_r, firstn_all. reflexivity.
Qed.

Lemma save_name_suffix s : s <> [] -> suffix (save_name s) = cdict_suffix.
Proof. intros Hs. rewrite save_name_stem. apply suffix_append. now apply stem_nonempty. Qed.

Lemma save_name_idem s : s <> [] -> save_name (save_name s) = save_name s.
Proof.
  intros Hs. unfold save_name at 1. rewrite save_name_suffix by exact Hs.
  replace (name_eqb cdict_suffix cdict_suffix) with true; [reflexivity|].
  symmetry. now apply name_eqb_eq.
Qed.

Lemma save_name_collision s t : save_name s = save_name t <-> stem s = stem t.
Proof.
  rewrite !save_name_stem. split; intros H; [|congruence]. now apply app_inv_tail in H.
Qed.

Section P.
  Context {D C : Type}.
  Variable dec : forall a b : D, {a = b} + {a <> b}.
  Notation fs := (@fs D C).
  Notation path := (@path D).
  Notation save := (@save D C dec).
  Notation load := (@load D C).
  Notation saves := (@saves D C dec).
  Notation save_crash := (@save_crash D C dec).

  Lemma upd_same (f : fs) p x : upd dec f p x p = x.
  Proof. unfold upd. destruct (path_eq_dec dec p p); congruence. Qed.
  Lemma upd_other (f : fs) p x q : q <> p -> upd dec f p x q = f q.
  Proof. unfold upd. destruct (path_eq_dec dec q p); congruence. Qed.

  Lemma save_other (f : fs) c p ow q : q <> target p -> fst (save f c p ow) q = f q.
  Proof.
    intros Hq. unfold SaveModel.save, save_ops.
    destruct (f (target p)); [destruct ow|]; simpl; rewrite ?upd_other by exact Hq; reflexivity.
  Qed.

  Lemma save_target (f : fs) c p ow :
    fst (save f c p ow) (target p)
    = match f (target p) with
      | Some x => if ow then Some (Full c) else Some x
      | None => Some (Full c)
      end
    /\ snd (save f c p ow) = match f (target p) with Some _ => ow | None => true end.
  Proof.
    unfold SaveModel.save, save_ops.
    destruct (f (target p)) eqn:E; [destruct ow|]; simpl; rewrite ?upd_same; auto.
  Qed.

  Lemma save_load (f : fs) c p ow : snd p <> [] ->
    snd (save f c p ow) = true -> load (fst (save f c p ow)) (target p) = Some c.
  Proof.
    intros Hp H. destruct (save_target f c p ow) as [H1 H2]. unfold SaveModel.load.
    rewrite H1. rewrite H2 in H.
    assert (Hs : name_eqb (suffix (snd (target p))) cdict_suffix = true).
    { apply name_eqb_eq. simpl. now apply save_name_suffix. }
    destruct (f (target p)); [subst ow|]; rewrite Hs; reflexivity.
  Qed.

  Lemma save_exists (f : fs) c p x : f (target p) = Some x -> save f c p false = (f, false).
  Proof. intros H. unfold SaveModel.save, save_ops. now rewrite H. Qed.

  (** The object a path holds after a history: that of the last save that was
      allowed to write, i.e. the first to the path or one with overwrite. *)
  Fixpoint last_saved (q : path) (cur : option (file C)) (h : list (C * path * bool)) : option (file C) :=
    match h with
    | [] => cur
    | (c, p, ow) :: h' =>
        last_saved q
          (if path_eq_dec dec q (target p)
           then match cur with
                | None => Some (Full c)
                | Some x => if ow then Some (Full c) else Some x
                end
           else cur) h'
    end.

  Lemma saves_content : forall h (f : fs) q, saves f h q = last_saved q (f q) h.
  Proof.
    induction h as [|[[c p] ow] h IH]; intros f q; [reflexivity|].
    cbn [SaveModel.saves last_saved]. rewrite IH. f_equal.
    destruct (path_eq_dec dec q (target p)) as [->|Hne].
    - destruct (save_target f c p ow) as [H _]. rewrite H. destruct (f (target p)); reflexivity.
    - now apply save_other.
  Qed.

  (** Saves to other stems never change what a path holds. *)
  Lemma saves_frame : forall h (f : fs) q,
    Forall (fun e => target (snd (fst e)) <> q) h -> saves f h q = f q.
  Proof.
    intros h f q H. rewrite saves_content. revert H. generalize (f q).
    induction h as [|[[c p] ow] h IH]; intros x H; [reflexivity|].
    inversion H; subst. simpl in *. destruct (path_eq_dec dec q (target p)); [congruence|auto].
  Qed.

  Lemma crash_other k (f : fs) c p ow q : q <> target p -> save_crash k f c p ow q = f q.
  Proof.
    intros Hq. unfold SaveModel.save_crash, save_ops.
    destruct (f (target p)); [destruct ow|]; auto.
    - destruct k as [|[|[|[|k]]]]; simpl; rewrite ?upd_other by exact Hq; reflexivity.
    - destruct k as [|[|[|k]]]; simpl; rewrite ?upd_other by exact Hq; reflexivity.
  Qed.

  Lemma crash_exact k (f : fs) c p ow :
    save_crash k f c p ow (target p)
    = match f (target p), ow, k with
      | Some x, false, _ => Some x
      | x, _, 0 => x
      | Some _, true, 1 => None
      | Some _, true, 2 => Some Incomplete
      | Some _, true, _ => Some (Full c)
      | None, _, 1 => Some Incomplete
      | None, _, _ => Some (Full c)
      end.
  Proof.
    unfold SaveModel.save_crash, save_ops.
    destruct (f (target p)) eqn:E; [destruct ow|].
    - destruct k as [|[|[|[|k]]]]; simpl; rewrite ?upd_same; auto.
    - auto.
    - destruct k as [|[|[|k]]]; simpl; rewrite ?upd_same; destruct ow; auto.
  Qed.
End P.
