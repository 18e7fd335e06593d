(** Proofs: importance-sampling ABC. *)
From Coq Require Import Reals List Bool Arith Lia Lra.
From Verif Require Import XR Keys LoopModel LoopSpec LoopProofs WeightsSpec McmcSpec McmcModel AbcModel UnbSpec UnbProofs
  KexpSpec KexpProofs RejLawProofs BackLawProofs ImpModel ImpSpec.
Import ListNotations.
Open Scope R_scope.

Section Run.
  Context {Data : Type}.
  Variables (ps : key -> vec) (pp : vec -> key -> xr) (ls : vec -> key -> Data) (dist : Data -> xr) (prop : key -> vec).
  Variable lw : abc_core (Data := Data) -> xr.
  Notation update := (imp_update pp ls dist prop lw).
  Notation startup := (imp_startup ps pp ls dist lw).

  Lemma imp_iterate k m : ie_iter (snd (iterate update m (startup k))) = 0%nat.
  Proof. induction m as [|m IH]; [reflexivity|]. cbn [iterate]. destruct (iterate update m (startup k)) as [s e]. exact IH. Qed.
  Lemma imp_run_eq n k : (1 <= n)%nat -> imp_run ps pp ls dist prop lw n k = map (fun j => fst (iterate update j (startup k))) (seq 0 n).
  Proof.
    intros Hn. unfold imp_run.
    destruct (run_loop_correct (fun (_ : isample) e => (n - 1 <=? ie_iter e)%nat) update (startup k) (n - 1)) as (m & (Hm & Hc & Hs) & Hr).
    rewrite Hr. do 2 f_equal. destruct Hs as [->|Hs]; [lia|].
    apply negb_false_iff, Nat.leb_le in Hs. rewrite imp_iterate in Hs. lia.
  Qed.

  Definition step_core (k : key) : abc_core :=
    ABC (prop (KSplit k 4 1)) (pp (prop (KSplit k 4 1)) (KSplit k 4 2)) (ls (prop (KSplit k 4 1)) (KSplit k 4 3))
        (dist (ls (prop (KSplit k 4 1)) (KSplit k 4 3))).
  Fixpoint later (k : key) (m : nat) : list (abc_core (Data := Data)) :=
    match m with O => [] | S m' => step_core k :: later (KSplit k 4 0) m' end.
  Lemma later_iterate m : forall s e, map (fun j => fst (iterate update (S j) (s, e))) (seq 0 m) = map (fun c => ISample c (lw c)) (later (ie_key e) m).
  Proof.
    assert (C : forall j c, iterate update (S j) c = iterate update j (update (fst c) (snd c))).
    { induction j as [|j IH]; intros c; [cbn; destruct c; reflexivity|]. change (iterate update (S (S j)) c) with (let c' := iterate update (S j) c in update (fst c') (snd c')).
      cbv zeta. rewrite IH. reflexivity. }
    induction m as [|m IH]; intros s e; [reflexivity|]. cbn [seq map later]. f_equal.
    rewrite <- seq_shift, map_map. etransitivity; [|exact (IH (fst (update s e)) (snd (update s e)))]. apply map_ext. intros j.
    rewrite C. reflexivity.
  Qed.
  Definition first_core (k : key) : abc_core (Data := Data) := i_core (fst (startup k)).
  Lemma run_cores n k : (1 <= n)%nat ->
    imp_run ps pp ls dist prop lw n k = map (fun c => ISample c (lw c)) (first_core k :: later (KSplit (KSplit (KSplit k 2 0) 2 0) 2 0) (n - 1)).
  Proof.
    intros Hn. rewrite imp_run_eq by exact Hn. destruct n as [|n]; [lia|]. cbn [seq map]. f_equal.
    rewrite <- seq_shift, map_map. replace (S n - 1)%nat with n by lia.
    change (fun x : nat => fst (iterate update (S x) (startup k))) with (fun j => fst (iterate update (S j) (fst (startup k), snd (startup k)))).
    rewrite later_iterate. reflexivity.
  Qed.
End Run.

Section Law.
  Context {Data W : Type}.
  Variable P : law W.
  Hypothesis HP : prob P.
  Variable supp : list vec.
  Variable ip : vec -> R.
  Variable lk : vec -> law Data.
  Variable dist : Data -> xr.
  Variables (psamp qsamp : W -> vec) (lsamp : vec -> W -> Data).
  Variables (mu q : vec -> R).
  Hypothesis Hps : forall f, mean P (fun z => f (psamp z)) = Rsum (map (fun x => mu x * f x) supp).
  Hypothesis Hqs : forall f, mean P (fun z => f (qsamp z)) = Rsum (map (fun x => q x * f x) supp).
  Hypothesis Hls : forall x f, mean P (fun z => f (lsamp x z)) = mean (lk x) f.
  Notation pp := (fun x (_ : key) => Fin (ip x)).
  Notation sim := (simulation supp ip lk dist).
  Notation core_of x d := (ABC x (Fin (ip x)) d (dist d)).

  Lemma mean_simulation r phi : mean (sim r) phi = Rsum (map (fun x => r x * mean (lk x) (fun d => phi (core_of x d))) supp).
  Proof.
    unfold simulation. clear Hps Hqs. induction supp as [|x l IH]; [reflexivity|]. cbn [flat_map map Rsum].
    rewrite <- IH. unfold mean at 1. rewrite map_app, map_map. cbn [fst snd].
    assert (E : forall l m, Rsum (l ++ m) = Rsum l + Rsum m) by (induction l0 as [|z l0 IHl]; intros m; cbn; [lra|rewrite IHl; lra]).
    rewrite E. f_equal. unfold mean. rewrite <- Rsum_scal. apply Rsum_ext. intros; lra.
  Qed.

  Lemma core_drawn (samp : W -> vec) r k1 k2 : k1 <> k2 ->
    (forall f, mean P (fun z => f (samp z)) = Rsum (map (fun x => r x * f x) supp)) ->
    drawn P [k1; k2] (fun w => core_of (samp (w k1)) (lsamp (samp (w k1)) (w k2))) (mean (sim r)).
  Proof.
    intros N H.
    pose proof (drawn_bind P [k1] [k2] (fun w => samp (w k1)) (fun v w => core_of v (lsamp v (w k2)))
      (fun phi => Rsum (map (fun x => r x * phi x) supp)) (fun v phi => mean (lk v) (fun d => phi (core_of v d)))) as D.
    cbn [app] in D. refine (drawn_law P _ _ _ _ _ (D _ _ _)); clear D.
    - intros phi. symmetry. apply mean_simulation.
    - apply (drawn_law P) with (M := fun phi => mean P (fun z => phi (samp z))); [intros phi; apply H|]. apply (drawn_key P HP k1 samp).
    - intros k [<-|[]] [E|[]]. apply N. symmetry. exact E.
    - intros w. apply (drawn_law P) with (M := fun phi => mean P (fun z => phi (core_of (samp (w k1)) (lsamp (samp (w k1)) z)))).
      { intros phi. apply (Hls (samp (w k1)) (fun d => phi (core_of (samp (w k1)) d))). }
      apply (drawn_key P HP k2 (fun z => core_of (samp (w k1)) (lsamp (samp (w k1)) z))).
  Qed.

  Fixpoint later_keys (k : key) (m : nat) : list key :=
    match m with O => [] | S m' => [KSplit k 4 1; KSplit k 4 3] ++ later_keys (KSplit k 4 0) m' end.
  Lemma later_keys_derived m : forall k p, In p (later_keys k m) -> derived k p.
  Proof.
    induction m as [|m IH]; intros k p H; [destruct H|]. cbn in H. destruct H as [<-|[<-|H]]; [repeat constructor|repeat constructor|].
    apply derived_trans with (KSplit k 4 0); [repeat constructor|apply IH, H].
  Qed.
  Lemma later_drawn m : forall k, drawn P (later_keys k m)
    (fun w => later pp (fun v k => lsamp v (w k)) dist (fun k => qsamp (w k)) k m) (expect (repeat (sim q) m)).
  Proof.
    induction m as [|m IH]; intros k; cbn [later later_keys repeat].
    - apply (drawn_const P HP []).
    - apply drawn_cons; [|apply IH|].
      + apply (core_drawn qsamp q (KSplit k 4 1) (KSplit k 4 3)); [intros E; discriminate|exact Hqs].
      + intros p [<-|[<-|[]]] H; apply later_keys_derived, derived_split_inv in H; lia.
  Qed.

  Definition imp_keys (n : nat) (k : key) : list key :=
    [KSplit k 2 1; KSplit (KSplit (KSplit k 2 0) 2 0) 2 1] ++ later_keys (KSplit (KSplit (KSplit k 2 0) 2 0) 2 0) (n - 1).
  Notation run w lw n k := (imp_run (fun k => psamp (w k)) pp (fun v k => lsamp v (w k)) dist (fun k => qsamp (w k)) lw n k).

  Theorem cores_drawn lw n k : (1 <= n)%nat ->
    drawn P (imp_keys n k) (fun w => map (@i_core Data) (run w lw n k)) (expect (sim mu :: repeat (sim q) (n - 1))).
  Proof.
    intros Hn. apply (drawn_ext P) with (a := fun w => first_core (fun k => psamp (w k)) pp (fun v k => lsamp v (w k)) dist lw k
      :: later pp (fun v k => lsamp v (w k)) dist (fun k => qsamp (w k)) (KSplit (KSplit (KSplit k 2 0) 2 0) 2 0) (n - 1)).
    { intros w. rewrite run_cores by exact Hn. rewrite map_map. symmetry. apply map_id. }
    apply drawn_cons; [|apply later_drawn|].
    - apply (core_drawn psamp mu); [intros E; apply (f_equal ksize) in E; cbn in E; lia|exact Hps].
    - intros p [<-|[<-|[]]] H.
      + apply later_keys_derived in H. apply (incomp_children k 2 0 2 1 ltac:(lia) (KSplit k 2 1)); [|constructor].
        eapply derived_trans; [|exact H]. repeat constructor.
      + apply later_keys_derived, derived_split_inv in H. lia.
  Qed.

  (** sums over the samples *)
  Lemma expect_sum (ds : list (law (abc_core (Data := Data)))) g : List.Forall prob ds ->
    expect ds (fun l => Rsum (map g l)) = Rsum (map (fun d => mean d g) ds).
  Proof.
    induction ds as [|d ds IH]; intros F; [reflexivity|]. inversion F as [|? ? F1 F2]; subst. cbn [expect map Rsum].
    rewrite (mean_fext _ _ (fun a => g a + Rsum (map (fun d => mean d g) ds))).
    - rewrite mean_plus. f_equal. apply mean_const, F1.
    - intros a. rewrite (expect_fext _ _ (fun r => g a + 1 * Rsum (map g r))) by (intros; lra).
      rewrite (expect_affine ds (g a) 1 (fun r => Rsum (map g r))) by exact F2. rewrite IH by exact F2. lra.
  Qed.

  Hypothesis Hlk : forall x, prob (lk x).
  Lemma sim_prob r : Rsum (map r supp) = 1 -> prob (sim r).
  Proof.
    intros H. unfold prob. transitivity (mean (sim r) (fun _ => 1)); [unfold mean; apply Rsum_ext; intros; lra|].
    rewrite mean_simulation. transitivity (Rsum (map r supp)); [|exact H]. apply Rsum_ext. intros x _. rewrite mean_const by apply Hlk. lra.
  Qed.

  Lemma run_sum lw n k g : (1 <= n)%nat -> Rsum (map mu supp) = 1 -> Rsum (map q supp) = 1 ->
    has_mean P (fun w => Rsum (map (fun s => weight (i_lw s) * g (i_core s)) (run w lw n k)))
      (mean (sim mu) (fun c => weight (lw c) * g c) + INR (n - 1) * mean (sim q) (fun c => weight (lw c) * g c)).
  Proof.
    intros Hn H1 H2. destruct (cores_drawn lw n k Hn) as [_ D]. exists (imp_keys n k).
    specialize (D (fun l => Rsum (map (fun c => weight (lw c) * g c) l))). cbv beta in D.
    assert (Pq : prob (sim q)) by (apply sim_prob, H2).
    assert (Pm : prob (sim mu)) by (apply sim_prob, H1).
    rewrite expect_sum in D.
    2:{ constructor; [exact Pm|]. apply Forall_forall. intros d Hd. apply repeat_spec in Hd. subst d. exact Pq. }
    cbn [map Rsum] in D. rewrite map_repeat in D.
    assert (E : forall a m, Rsum (repeat a m) = INR m * a).
    { intros a m. induction m as [|m IH]; [cbn; lra|]. cbn [repeat Rsum]. rewrite IH, S_INR. lra. }
    rewrite E in D. eapply mean_on_ext; [|exact D]. intros w. cbv beta. rewrite !run_cores by exact Hn. rewrite !map_map. reflexivity.
  Qed.

End Law.
