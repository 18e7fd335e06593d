(** Proofs about [bisect]. *)
From Coq Require Import Reals Bool Arith Lia Lra.
From Verif Require Import XR BisectModel.
Open Scope R_scope.

Section P.
  Variable f : R -> R.
  Variable max_iter : nat.
  Variable tol : R.
  Hypothesis tol_pos : 0 < tol.
  Variables lo hi : R.

  Definition between (a b x : R) : Prop := Rmin a b <= x <= Rmax a b.

  (** what every state satisfies *)
  Definition binv (inc : bool) (s : bstate) : Prop :=
    e0 s = f (b0 s) /\ e1 s = f (b1 s)
    /\ between lo hi (b0 s) /\ between lo hi (b1 s)
    /\ (lo <= hi -> b0 s <= b1 s) /\ (hi <= lo -> b1 s <= b0 s)
    /\ (if inc then e0 s <= 0 <= e1 s else e1 s <= 0 <= e0 s).

  Lemma conv_check_true s : conv_check max_iter tol s = true ->
    tol <= Rabs (e0 s) /\ tol <= Rabs (e1 s) /\ (biter s < max_iter)%nat
    /\ ((e0 s < 0 < e1 s) \/ (e1 s < 0 < e0 s)).
  Proof.
    unfold conv_check. rewrite Bool.negb_true_iff, !Bool.orb_false_iff.
    intros [[[H1 H2] H3] H4].
    apply Rltb_false in H1.
    assert (A : tol <= Rabs (e0 s)) by (apply Rle_trans with (1 := H1); apply Rmin_l).
    assert (B : tol <= Rabs (e1 s)) by (apply Rle_trans with (1 := H1); apply Rmin_r).
    apply Nat.leb_gt in H2.
    split; [exact A|]. split; [exact B|]. split; [exact H2|].
    apply Bool.andb_false_iff in H3. apply Bool.andb_false_iff in H4.
    rewrite !Rltb_false in H3, H4.
    unfold Rabs in A, B. destruct (Rcase_abs (e0 s)), (Rcase_abs (e1 s)); lra.
  Qed.

  Lemma conv_check_false s : conv_check max_iter tol s = false ->
    Rabs (e0 s) < tol \/ Rabs (e1 s) < tol \/ (max_iter <= biter s)%nat
    \/ (e0 s < 0 /\ e1 s < 0) \/ (0 < e0 s /\ 0 < e1 s).
  Proof.
    unfold conv_check. rewrite Bool.negb_false_iff, !Bool.orb_true_iff, !Bool.andb_true_iff, !Rltb_true.
    intros [[[H|H]|H]|H].
    - unfold Rmin in H. destruct (Rle_dec _ _); auto.
    - apply Nat.leb_le in H. auto.
    - right. right. right. left. lra.
    - right. right. right. right. lra.
  Qed.

  Lemma false_position a b p q : p <> q -> (p < 0 < q \/ q < 0 < p) ->
    (a <= b -> a <= a - p * (b - a) / (q - p) <= b)
    /\ (b <= a -> b <= a - p * (b - a) / (q - p) <= a).
  Proof.
    intros Hn Hs.
    assert (K : exists t, 0 <= t <= 1 /\ a - p * (b - a) / (q - p) = a + t * (b - a)).
    { exists (- p / (q - p)). split; [|field; lra].
      destruct Hs as [Hs|Hs].
      - split.
        + apply Rmult_le_pos; [lra|]. left. apply Rinv_0_lt_compat. lra.
        + apply Rmult_le_reg_r with (q - p); [lra|]. unfold Rdiv. rewrite Rmult_assoc, Rinv_l by lra. lra.
      - replace (- p / (q - p)) with (p / (p - q)) by (field; lra). split.
        + apply Rmult_le_pos; [lra|]. left. apply Rinv_0_lt_compat. lra.
        + apply Rmult_le_reg_r with (p - q); [lra|]. unfold Rdiv. rewrite Rmult_assoc, Rinv_l by lra. lra. }
    destruct K as (t & Ht & ->). split; intros; nra.
  Qed.

  Lemma body_inv inc s : binv inc s -> conv_check max_iter tol s = true -> binv inc (body_func f inc s).
  Proof.
    intros (E0 & E1 & B0 & B1 & O1 & O2 & S) C.
    destruct (conv_check_true s C) as (_ & _ & _ & Sg).
    assert (Hn : e0 s <> e1 s) by lra.
    destruct (false_position (b0 s) (b1 s) (e0 s) (e1 s) Hn Sg) as [P1 P2].
    change (b0 s - e0 s * (b1 s - b0 s) / (e1 s - e0 s)) with (new_pos s) in P1, P2.
    assert (Bn : between lo hi (new_pos s)).
    { unfold between in *. destruct (Rle_dec lo hi) as [L|L].
      - specialize (P1 (O1 L)). lra.
      - assert (L' : hi <= lo) by lra. specialize (P2 (O2 L')). lra. }
    unfold body_func.
    destruct inc.
    - destruct (Rltb 0 (f (new_pos s))) eqn:V; unfold binv; cbn [b0 b1 e0 e1];
        [apply Rltb_true in V | apply Rltb_false in V];
        (split; [auto|]; split; [auto|]; split; [auto|]; split; [auto|]; split;
         [intros L; specialize (P1 (O1 L)); lra|]; split; [intros L; specialize (P2 (O2 L)); lra|lra]).
    - destruct (Rltb (f (new_pos s)) 0) eqn:V; unfold binv; cbn [b0 b1 e0 e1];
        [apply Rltb_true in V | apply Rltb_false in V];
        (split; [auto|]; split; [auto|]; split; [auto|]; split; [auto|]; split;
         [intros L; specialize (P1 (O1 L)); lra|]; split; [intros L; specialize (P2 (O2 L)); lra|lra]).
  Qed.

  Lemma init_inv : conv_check max_iter tol (bisect_init f lo hi) = true ->
    binv (bisect_increasing f lo hi) (bisect_init f lo hi).
  Proof.
    intros C. destruct (conv_check_true _ C) as (_ & _ & _ & Sg). cbn in Sg.
    unfold binv, bisect_init, bisect_increasing, between; cbn [b0 b1 e0 e1].
    pose proof (Rmin_l lo hi). pose proof (Rmin_r lo hi). pose proof (Rmax_l lo hi). pose proof (Rmax_r lo hi).
    split; [reflexivity|]. split; [reflexivity|].
    split; [lra|]. split; [lra|]. split; [auto|]. split; [auto|].
    destruct (Rltb (f lo) (f hi)) eqn:L; [apply Rltb_true in L | apply Rltb_false in L]; lra.
  Qed.

  (** the states visited *)
  Fixpoint bsteps (inc : bool) (k : nat) (s : bstate) : bstate :=
    match k with O => s | S k' => bsteps inc k' (body_func f inc s) end.

  Lemma bsteps_succ inc k s : bsteps inc (S k) s = body_func f inc (bsteps inc k s).
  Proof. revert s. induction k as [|k IH]; intros s; [reflexivity|]. cbn [bsteps]. rewrite <- IH. reflexivity. Qed.

  Lemma bsteps_iter inc k s : bsteps inc k s = Nat.iter k (body_func f inc) s.
  Proof. induction k as [|k IH]; [reflexivity|]. rewrite bsteps_succ, IH. reflexivity. Qed.

  Lemma body_biter inc s : biter (body_func f inc s) = S (biter s).
  Proof. unfold body_func. destruct (if inc then _ else _); reflexivity. Qed.

  Lemma while_loop_spec inc fuel : forall s, (max_iter <= biter s + fuel)%nat ->
    exists k, (k <= fuel)%nat
      /\ while_loop f max_iter tol inc fuel s = bsteps inc k s
      /\ biter (bsteps inc k s) = (biter s + k)%nat
      /\ conv_check max_iter tol (bsteps inc k s) = false
      /\ forall j, (j < k)%nat -> conv_check max_iter tol (bsteps inc j s) = true.
  Proof.
    induction fuel as [|fuel IH]; intros s H.
    - exists 0%nat. cbn. split; [lia|]. split; [reflexivity|]. split; [lia|]. split; [|lia].
      unfold conv_check. rewrite Bool.negb_false_iff, !Bool.orb_true_iff.
      left. left. right. apply Nat.leb_le. lia.
    - cbn [while_loop]. destruct (conv_check max_iter tol s) eqn:C.
      + destruct (IH (body_func f inc s)) as (k & Hk & E & B & C' & A).
        { rewrite body_biter. lia. }
        exists (S k). split; [lia|]. split; [exact E|]. cbn [bsteps].
        split; [rewrite B, body_biter; lia|]. split; [exact C'|].
        intros j Hj. destruct j as [|j]; [exact C|]. cbn [bsteps]. apply A. lia.
      + exists 0%nat. cbn [bsteps]. split; [lia|]. split; [reflexivity|]. split; [lia|].
        split; [exact C|]. lia.
  Qed.

  (** either the loop was never entered, or the invariant holds throughout *)
  Lemma bisect_run :
    let inc := bisect_increasing f lo hi in
    let s0 := bisect_init f lo hi in
    exists k, bisect f max_iter tol lo hi = bsteps inc k s0
      /\ biter (bisect f max_iter tol lo hi) = k
      /\ conv_check max_iter tol (bisect f max_iter tol lo hi) = false
      /\ (forall j, (j < k)%nat -> conv_check max_iter tol (bsteps inc j s0) = true)
      /\ ((0 < k)%nat -> forall j, (j <= k)%nat -> binv inc (bsteps inc j s0)).
  Proof.
    cbv zeta. unfold bisect.
    destruct (while_loop_spec (bisect_increasing f lo hi) max_iter (bisect_init f lo hi)) as (k & Hk & E & B & C & A).
    { cbn. lia. }
    exists k. rewrite E. split; [reflexivity|]. split; [exact B|]. split; [exact C|]. split; [exact A|].
    intros K j. induction j as [|j IH]; intros Hj.
    - cbn [bsteps]. apply init_inv. apply (A 0%nat K).
    - rewrite bsteps_succ. apply body_inv; [apply IH; lia | apply A; lia].
  Qed.
End P.
