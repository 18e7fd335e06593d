(** Proofs for the state-space model. *)
From Coq Require Import Reals List Lia Lra.
From Coquelicot Require Import Coquelicot.
From Verif Require Import Keys McmcModel HmcModel ScenarioSpec SsmModel SsmSpec.
Import ListNotations.
Open Scope R_scope.

Lemma sumn_ext n f g : (forall i, (i < n)%nat -> f i = g i) -> sumn n f = sumn n g.
Proof. induction n; intros H; cbn; [reflexivity|]. rewrite IHn, H; auto. Qed.
Lemma sumn_plus n f g : sumn n (fun i => f i + g i) = sumn n f + sumn n g.
Proof. induction n; cbn; [ring|]. rewrite IHn. ring. Qed.
Lemma sumn_first n f : sumn (S n) f = f 0%nat + sumn n (fun i => f (S i)).
Proof. induction n; [cbn; ring|]. change (sumn (S (S n)) f) with (sumn (S n) f + f (S n)). rewrite IHn. cbn. ring. Qed.
Lemma sumn_0 n : sumn n (fun _ => 0) = 0.
Proof. induction n; cbn; [reflexivity|]. rewrite IHn. ring. Qed.

Lemma rsum_map {A} (d : A) (f : A -> R) l : rsum (map f l) = sumn (length l) (fun i => f (nth i l d)).
Proof.
  induction l as [|a l IH]; [reflexivity|]. change (rsum (map f (a :: l))) with (f a + rsum (map f l)).
  rewrite IH. change (length (a :: l)) with (S (length l)). rewrite sumn_first. reflexivity.
Qed.

Lemma removelast_length {A} (l : list A) : length (removelast l) = (length l - 1)%nat.
Proof. induction l as [|a [|b l] IH]; [reflexivity..|]. cbn [removelast length] in *. rewrite IH. lia. Qed.
Lemma tl_length {A} (l : list A) : length (tl l) = (length l - 1)%nat.
Proof. destruct l; cbn; lia. Qed.
Lemma nth_removelast {A} (l : list A) i d : (i < length l - 1)%nat -> nth i (removelast l) d = nth i l d.
Proof.
  revert i. induction l as [|a [|b l] IH]; intros i Hi; [cbn in *; lia..|].
  cbn [removelast length] in *. destruct i; [reflexivity|]. apply IH. cbn. lia.
Qed.
Lemma nth_tl {A} (l : list A) i d : nth i (tl l) d = nth (S i) l d.
Proof. destruct l; [destruct i|]; reflexivity. Qed.

Section S.
  Context {Y Tm : Type}.
  Variables (dx : vec) (dy : Y) (dt : Tm).

  Lemma vmap_trans_length {A} (f : vec -> Tm -> vec -> Tm -> A) xs ts :
    length xs = length ts -> length (vmap_trans f xs ts) = (length ts - 1)%nat.
  Proof.
    intros H. unfold vmap_trans. rewrite map_length, !combine_length, !removelast_length, !tl_length. lia.
  Qed.
  Lemma vmap_lik_length {A} (f : vec -> Y -> Tm -> A) xs ys ts :
    length xs = length ts -> length ys = length ts -> length (vmap_lik f xs ys ts) = length ts.
  Proof. intros H1 H2. unfold vmap_lik. rewrite map_length, !combine_length. lia. Qed.

  Lemma vmap_trans_nth {A} (f : vec -> Tm -> vec -> Tm -> A) xs ts i d :
    length xs = length ts -> (i < length ts - 1)%nat ->
    nth i (vmap_trans f xs ts) d = f (nth i xs dx) (nth i ts dt) (nth (S i) xs dx) (nth (S i) ts dt).
  Proof.
    intros H Hi. unfold vmap_trans.
    rewrite (nth_indep _ d (f dx dt dx dt))
      by (rewrite map_length, !combine_length, !removelast_length, !tl_length; lia).
    change (f dx dt dx dt) with
      ((fun p => f (fst (fst p)) (snd (fst p)) (fst (snd p)) (snd (snd p))) ((dx, dt), (dx, dt))).
    rewrite map_nth, !combine_nth by (rewrite ?combine_length, ?removelast_length, ?tl_length; lia).
    cbn. rewrite !nth_removelast, !nth_tl by lia. reflexivity.
  Qed.
  Lemma vmap_lik_nth {A} (f : vec -> Y -> Tm -> A) xs ys ts i d :
    length xs = length ts -> length ys = length ts -> (i < length ts)%nat ->
    nth i (vmap_lik f xs ys ts) d = f (nth i xs dx) (nth i ys dy) (nth i ts dt).
  Proof.
    intros H1 H2 Hi. unfold vmap_lik.
    rewrite (nth_indep _ d (f dx dy dt)) by (rewrite map_length, !combine_length; lia).
    change (f dx dy dt) with ((fun p => f (fst (fst p)) (snd (fst p)) (snd p)) ((dx, dy), dt)).
    rewrite map_nth, !combine_nth by (rewrite ?combine_length; lia). reflexivity.
  Qed.

  Lemma rsum_nth l : rsum l = sumn (length l) (fun i => nth i l 0).
  Proof. rewrite <- (map_id l) at 1. exact (rsum_map 0 (fun x => x) l). Qed.

  Variable M : ssm Y Tm.

  Lemma smoothing_potential__sum xs ys ts :
    ts <> [] -> length xs = length ts -> length ys = length ts ->
    smoothing_potential_ M xs ys ts
    = Some (path_potential (initial_potential M) (transition_potential M) (likelihood_potential M)
              (length ts) (fun i => nth i xs dx) (fun i => nth i ys dy) (fun i => nth i ts dt)).
  Proof.
    intros Hn H1 H2. unfold smoothing_potential_, path_potential.
    destruct xs as [|x0 xs], ts as [|t0 ts]; try (congruence || discriminate).
    f_equal. f_equal; [f_equal|].
    - rewrite rsum_nth, vmap_trans_length by assumption. apply sumn_ext. intros i Hi.
      rewrite vmap_trans_nth by assumption. reflexivity.
    - rewrite rsum_nth, vmap_lik_length by assumption. apply sumn_ext. intros i Hi.
      rewrite vmap_lik_nth by assumption. reflexivity.
  Qed.

  (** the gradient with respect to state [i] of [n] *)
  Definition path_grad (n : nat) (x : nat -> vec) (y : nat -> Y) (t : nat -> Tm) (i j : nat) : R :=
    (if Nat.eqb i 0 then grad_initial_potential M (x 0%nat) (t 0%nat) j else 0)
    + (if Nat.ltb i (n - 1) then fst (grad_transition_potential M (x i) (t i) (x (S i)) (t (S i))) j else 0)
    + (match i with
       | O => 0
       | S i' => snd (grad_transition_potential M (x i') (t i') (x i) (t i)) j end)
    + grad_likelihood_potential M (x i) (y i) (t i) j.

  Lemma dotn_add d f g h : dotn d (fun j => f j + g j) h = dotn d f h + dotn d g h.
  Proof. induction d; cbn; [ring|]. rewrite IHd. ring. Qed.
  Lemma dotn_zero d h : dotn d (fun _ => 0) h = 0.
  Proof. induction d; cbn; [reflexivity|]. rewrite IHd. ring. Qed.
  Lemma dotn_ext d f g h : (forall j, f j = g j) -> dotn d f h = dotn d g h.
  Proof. intros H. induction d; cbn; [reflexivity|]. rewrite IHd, H. reflexivity. Qed.

  Lemma path_grad_dot d n x y t h : (0 < n)%nat ->
    sumn n (fun i => dotn d (path_grad n x y t i) (h i))
    = dotn d (grad_initial_potential M (x 0%nat) (t 0%nat)) (h 0%nat)
      + sumn (n - 1) (fun i =>
          dotn d (fst (grad_transition_potential M (x i) (t i) (x (S i)) (t (S i)))) (h i)
          + dotn d (snd (grad_transition_potential M (x i) (t i) (x (S i)) (t (S i)))) (h (S i)))
      + sumn n (fun i => dotn d (grad_likelihood_potential M (x i) (y i) (t i)) (h i)).
  Proof.
    intros Hn. destruct n as [|m]; [lia|]. replace (S m - 1)%nat with m by lia.
    set (A := dotn d (grad_initial_potential M (x 0%nat) (t 0%nat)) (h 0%nat)).
    set (F := fun i => dotn d (fst (grad_transition_potential M (x i) (t i) (x (S i)) (t (S i)))) (h i)).
    set (G := fun i => dotn d (snd (grad_transition_potential M (x i) (t i) (x (S i)) (t (S i)))) (h (S i))).
    set (L := fun i => dotn d (grad_likelihood_potential M (x i) (y i) (t i)) (h i)).
    rewrite sumn_plus with (f := F) (g := G).
    rewrite sumn_ext with
      (g := fun i => (((if Nat.eqb i 0 then A else 0) + (if Nat.ltb i m then F i else 0))
                      + match i with O => 0 | S i' => G i' end) + L i).
    2:{ intros i Hi. unfold path_grad. rewrite !dotn_add. apply (f_equal2 Rplus); [apply (f_equal2 Rplus); [apply (f_equal2 Rplus)|]|reflexivity].
        - destruct (Nat.eqb_spec i 0); [subst; reflexivity|apply dotn_zero].
        - replace (S m - 1)%nat with m by lia. destruct (Nat.ltb i m); [reflexivity|apply dotn_zero].
        - destruct i; [apply dotn_zero|reflexivity]. }
    rewrite !sumn_plus.
    replace (sumn (S m) (fun i => if Nat.eqb i 0 then A else 0)) with A
      by (rewrite sumn_first; cbn; rewrite sumn_0; ring).
    replace (sumn (S m) (fun i => if Nat.ltb i m then F i else 0)) with (sumn m F).
    2:{ change (sumn (S m) ?f) with (sumn m f + f m). cbv beta. rewrite Nat.ltb_irrefl, Rplus_0_r.
        apply sumn_ext. intros i Hi. destruct (Nat.ltb_spec i m); [reflexivity|lia]. }
    rewrite (sumn_first m (fun i => match i with O => 0 | S i' => G i' end)).
    change (sumn m (fun i => match S i with O => 0 | S i' => G i' end)) with (sumn m G).
    change (sumn (S m) (fun i => L i)) with (sumn (S m) L).
    set (a := sumn m F). set (b := sumn m G). set (c := sumn (S m) L). ring.
  Qed.

  Lemma derive_sumn n (f : nat -> R -> R) (l : nat -> R) s :
    (forall i, (i < n)%nat -> is_derive (f i) s (l i)) ->
    is_derive (fun u => sumn n (fun i => f i u)) s (sumn n l).
  Proof.
    induction n; intros H; cbn; [apply @is_derive_const|].
    apply @is_derive_plus; [apply IHn; intros; apply H; lia|apply H; lia].
  Qed.

  Lemma path_grad_ok d n x y t : (0 < n)%nat ->
    is_grad d (fun v => initial_potential M v (t 0%nat)) (x 0%nat)
            (grad_initial_potential M (x 0%nat) (t 0%nat)) ->
    (forall i, (i < n - 1)%nat ->
       is_grad2 d (fun v w => transition_potential M v (t i) w (t (S i))) (x i) (x (S i))
         (fst (grad_transition_potential M (x i) (t i) (x (S i)) (t (S i))))
         (snd (grad_transition_potential M (x i) (t i) (x (S i)) (t (S i))))) ->
    (forall i, (i < n)%nat ->
       is_grad d (fun v => likelihood_potential M v (y i) (t i)) (x i)
               (grad_likelihood_potential M (x i) (y i) (t i))) ->
    is_path_grad d n (fun x => path_potential (initial_potential M) (transition_potential M)
                                 (likelihood_potential M) n x y t) x (path_grad n x y t).
  Proof.
    intros Hn H1 H2 H3 h. rewrite path_grad_dot by assumption. unfold path_potential.
    apply @is_derive_plus; [apply @is_derive_plus|].
    - apply H1.
    - apply derive_sumn. intros i Hi. apply (H2 i Hi).
    - apply derive_sumn. intros i Hi. apply (H3 i Hi).
  Qed.

  Lemma last_nth {A} (l : list A) d : last l d = nth (length l - 1) l d.
  Proof.
    induction l as [|a [|b l] IH]; [reflexivity..|]. cbn [last length] in *. rewrite IH.
    replace (S (S (length l)) - 1)%nat with (S (length l)) by lia.
    replace (S (length l) - 1)%nat with (length l) by lia. reflexivity.
  Qed.

  Lemma grad_smoothing_potential__nth xs ys ts :
    (2 <= length ts)%nat -> length xs = length ts -> length ys = length ts ->
    exists g, grad_smoothing_potential_ M xs ys ts = Some g /\ length g = length ts
    /\ forall i, (i < length ts)%nat -> forall j,
       nth i g dx j = path_grad (length ts) (fun i => nth i xs dx) (fun i => nth i ys dy) (fun i => nth i ts dt) i j.
  Proof.
    intros Hn H1 H2.
    set (P := map fst (vmap_trans (grad_transition_potential M) xs ts)).
    set (N := map snd (vmap_trans (grad_transition_potential M) xs ts)).
    set (L := vmap_lik (grad_likelihood_potential M) xs ys ts).
    assert (LP : length P = (length ts - 1)%nat) by (unfold P; rewrite map_length; apply vmap_trans_length, H1).
    assert (LN : length N = (length ts - 1)%nat) by (unfold N; rewrite map_length; apply vmap_trans_length, H1).
    assert (LL : length L = length ts) by (apply vmap_lik_length; assumption).
    assert (NP : forall i, (i < length ts - 1)%nat -> nth i P dx
      = fst (grad_transition_potential M (nth i xs dx) (nth i ts dt) (nth (S i) xs dx) (nth (S i) ts dt))).
    { intros i Hi. unfold P.
      rewrite <- (vmap_trans_nth (grad_transition_potential M) xs ts i (dx, dx) H1 Hi).
      exact (map_nth fst _ (dx, dx) i). }
    assert (NN : forall i, (i < length ts - 1)%nat -> nth i N dx
      = snd (grad_transition_potential M (nth i xs dx) (nth i ts dt) (nth (S i) xs dx) (nth (S i) ts dt))).
    { intros i Hi. unfold N.
      rewrite <- (vmap_trans_nth (grad_transition_potential M) xs ts i (dx, dx) H1 Hi).
      exact (map_nth snd _ (dx, dx) i). }
    assert (NL : forall i, (i < length ts)%nat -> nth i L dx
      = grad_likelihood_potential M (nth i xs dx) (nth i ys dy) (nth i ts dt)).
    { intros i Hi. apply vmap_lik_nth; assumption. }
    unfold grad_smoothing_potential_. fold P N L.
    destruct xs as [|x0 xs]; [destruct ts; cbn in *; lia|].
    destruct ts as [|t0 ts]; [cbn in *; lia|].
    set (n := length (t0 :: ts)) in *. clearbody n P N L.
    destruct P as [|p0 P']; [cbn [length] in LP; lia|]. destruct L as [|l0 L']; [cbn [length] in LL; lia|].
    set (ig := grad_initial_potential M x0 t0).
    set (mid := map _ _).
    assert (Lmid : length mid = (n - 2)%nat).
    { unfold mid. rewrite map_length, !combine_length, !removelast_length, LN. cbn [length] in LP, LL. lia. }
    assert (Nmid : forall i, (i < n - 2)%nat -> nth i mid dx
                   = vadd (vadd (nth i P' dx) (nth i N dx)) (nth i L' dx)).
    { intros i Hi. unfold mid.
      rewrite (nth_indep _ dx (vadd (vadd dx dx) dx)).
      2:{ unfold mid in Lmid. rewrite Lmid. exact Hi. }
      change (vadd (vadd dx dx) dx)
        with ((fun q : vec * vec * vec => vadd (vadd (fst (fst q)) (snd (fst q))) (snd q)) ((dx, dx), dx)).
      cbn [length] in LP, LL.
      rewrite map_nth, !combine_nth
        by (rewrite ?combine_length, ?removelast_length, ?LN; lia).
      cbn [fst snd]. rewrite !nth_removelast by lia. reflexivity. }
    eexists. split; [reflexivity|]. split.
    { rewrite !app_length, Lmid. cbn [length]. lia. }
    intros i Hi j. unfold path_grad.
    destruct i as [|i].
    - cbn [app nth Nat.eqb]. destruct (Nat.ltb_spec 0 (n - 1)); [|lia].
      specialize (NP 0%nat ltac:(lia)). specialize (NL 0%nat ltac:(lia)). cbn [nth] in NP, NL.
      unfold vadd. rewrite NP, NL. unfold ig. cbn [nth]. ring.
    - cbn [app nth Nat.eqb]. destruct (Nat.ltb_spec (S i) (n - 1)) as [Hlt|Hge].
      + rewrite app_nth1 by (rewrite Lmid; lia). rewrite Nmid by lia. unfold vadd.
        specialize (NP (S i) ltac:(lia)). specialize (NL (S i) ltac:(lia)). cbn [nth] in NP, NL.
        rewrite NP, NL, (NN i) by lia. cbn [nth]. ring.
      + assert (i = n - 2)%nat by lia. rewrite app_nth2 by (rewrite Lmid; lia).
        rewrite Lmid. replace (i - (n - 2))%nat with 0%nat by lia. cbn [nth]. unfold vadd.
        rewrite !last_nth, LN. cbn [length] in LL.
        rewrite (nth_indep N _ dx) by (rewrite LN; lia).
        rewrite (nth_indep L' _ dx) by lia.
        replace (n - 1 - 1)%nat with i by lia. replace (length L' - 1)%nat with i by lia.
        specialize (NL (S i) ltac:(lia)). cbn [nth] in NL.
        rewrite NL, NN by lia. cbn [nth]. ring.
  Qed.

  Lemma grad_smoothing_potential_nth xs ys ts :
    ts <> [] -> length xs = length ts -> length ys = length ts ->
    exists g, grad_smoothing_potential M xs ys ts = Some g /\ length g = length ts
    /\ forall i, (i < length ts)%nat -> forall j,
       nth i g dx j = path_grad (length ts) (fun i => nth i xs dx) (fun i => nth i ys dy) (fun i => nth i ts dt) i j.
  Proof.
    intros Hn H1 H2. destruct ts as [|t0 [|t1 [|t2 ts]]]; [congruence| | |].
    - destruct xs as [|x0 [|]]; try discriminate. destruct ys as [|y0 [|]]; try discriminate.
      eexists. split; [reflexivity|]. split; [reflexivity|]. intros [|i] Hi j; [|cbn in Hi; lia].
      unfold path_grad, vadd. cbn. ring.
    - destruct xs as [|x0 [|x1 [|]]]; try discriminate. destruct ys as [|y0 [|y1 [|]]]; try discriminate.
      eexists. split; [reflexivity|]. split; [reflexivity|].
      intros [|[|i]] Hi j; [| |cbn in Hi; lia]; unfold path_grad, vadd; cbn; ring.
    - apply grad_smoothing_potential__nth; [cbn; lia|assumption..].
  Qed.
End S.

Lemma seq_shift_n n len : seq n len = map (fun j => (n + j)%nat) (seq 0 len).
Proof.
  induction n; [cbn; rewrite map_id; reflexivity|].
  rewrite <- seq_shift, IHn, map_map. reflexivity.
Qed.
Lemma firstn_seq a m n : (m <= n)%nat -> firstn m (seq a n) = seq a m.
Proof.
  revert a n. induction m; intros a n H; [reflexivity|]. destruct n; [lia|]. cbn. rewrite IHm by lia. reflexivity.
Qed.
Lemma skipn_seq a m n : (m <= n)%nat -> skipn m (seq a n) = seq (a + m) (n - m).
Proof.
  revert a n. induction m; intros a n H.
  - cbn [skipn]. f_equal; lia.
  - destruct n; [lia|]. cbn [seq skipn]. rewrite IHm by lia. f_equal; lia.
Qed.
Lemma nth_map_seq k n len i d : (i < len)%nat -> nth i (map (fun j => KSplit k n j) (seq 0 len)) d = KSplit k n i.
Proof.
  intros H. rewrite (nth_indep _ d (KSplit k n 0)) by (rewrite map_length, seq_length; exact H).
  rewrite (map_nth (fun j => KSplit k n j)), seq_nth by exact H. reflexivity.
Qed.

Lemma sim_latent_ok {Tm} (tra : vec -> Tm -> Tm -> key -> vec) dx dt k n ts : forall m a x t,
  length ts = m ->
  let xs := sim_latent tra x t ts (map (fun j => KSplit k n j) (seq a m)) in
  length xs = m
  /\ forall i, (i < m)%nat ->
     nth (S i) (x :: xs) dx
     = tra (nth i (x :: xs) dx) (nth i (t :: ts) dt) (nth (S i) (t :: ts) dt) (KSplit k n (a + i)).
Proof.
  induction ts as [|t1 ts IH]; intros m a x t Hm; cbn in Hm; subst m; cbn.
  - split; [reflexivity|]. intros; lia.
  - destruct (IH (length ts) (S a) (tra x t t1 (KSplit k n a)) t1 eq_refl) as [L N].
    split; [rewrite L; reflexivity|]. intros [|i] Hi.
    + rewrite Nat.add_0_r. reflexivity.
    + replace (a + S i)%nat with (S a + i)%nat by lia. apply (N i). lia.
Qed.
