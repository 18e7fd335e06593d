(** Proofs that SMC runs computed from keys are unbiased. *)
From Coq Require Import Reals List Arith Bool Lia Lra FunctionalExtensionality.
From Verif Require Import XR Keys LoopModel LoopSpec LoopProofs McmcModel McmcSpec McmcProofs WeightsModel WeightsSpec SmcModel SmcSpec SmcProofs SmcRun SmcProps
  UnbSpec UnbProofs KexpSpec KexpProofs RejLawProofs ChainModel ChainSpec ChainProofs SmcLawModel SmcLawSpec SmcMoveProofs.
Import ListNotations.
Open Scope R_scope.

Section SL.
  Context {W : Type}.
  Variable P : law W.
  Hypothesis HP : prob P.
  Variable unif : W -> R.
  Variable nrm : W -> nat -> R.
  Variable psamp : W -> vec.
  Variable cat : W -> list xr -> nat -> list nat.
  Variable fp fl : vec -> R.
  Variable pr : vec -> xr.
  Variable supp : list vec.
  Variable gprior glik : vec -> key -> vec.
  Variable l : list R.
  Variable thr st : R.
  Variable steps n J0 : nat.

  Hypothesis Hin : forall x, In x supp -> pr x = Fin (fp x).
  Hypothesis Hout : forall x, ~ In x supp -> pr x = PInf.
  Hypothesis HN : NoDup supp.
  Hypothesis Hne : supp <> [].
  Hypothesis Hunif : forall x, 0 <= unif x < 1.
  Hypothesis Hs : symmetric_steps P nrm.
  Hypothesis Tpos : forall j, 0 < nth j l (last l 0).
  Hypothesis Hn : (0 < n)%nat.
  Notation T := (fun j => nth j l (last l 0)).
  Notation next := (scheduled l).
  Hypothesis Hu : forall j x y, (j < J0)%nat -> In x supp -> In y supp ->
    uniform_ok P unif (accept (Fin (fp x + T j * fl x)) (Fin (fp y + T j * fl y))).
  Hypothesis Hcat : forall x, categorical_ok (fun _ => cat x).
  Hypothesis Hmult : forall E e, reached fp fl supp gprior glik l thr n (E, e) -> (s_iter e < J0)%nat ->
    resample_criterion thr E = true -> multinomial P cat E.
  Hypothesis Hps : forall phi, mean P (fun x => phi (psamp x)) = mean (prior_law fp fl supp) phi.
  Hypothesis Hpin : forall x, In (psamp x) supp.

  Notation prior' := (prior' pr).
  Definition U (t : R) (v : vec) (_ : W) : xr := xadd (pr v) (xmul (Fin t) (Fin (fl v))).
  Notation pot := (pot fp fl).

  Lemma U_in t v e : In v supp -> U t v e = pot t v.
  Proof. intros H. unfold U, pot. rewrite Hin by exact H. reflexivity. Qed.
  Lemma U_out t v e : ~ In v supp -> U t v e = PInf.
  Proof. intros H. unfold U. rewrite Hout by exact H. reflexivity. Qed.
  Lemma U_ninf t v e : U t v e <> NInf.
  Proof. destruct (dec (In v supp)) as [H|H]; [rewrite U_in by exact H|rewrite U_out by exact H]; discriminate. Qed.

  (** * The inner sampler *)
  Definition ok (t : R) (s : vec * xr) : Prop := In (fst s) supp /\ snd s = pot t (fst s).
  Lemma accept_out t s x e : ok t s -> ~ In x supp -> accept (snd s) (U t x e) = 0.
  Proof. intros [_ ->] H. rewrite U_out by exact H. reflexivity. Qed.

  Lemma uniform_trivial a : a = 0 \/ a = 1 -> uniform_ok P unif a.
  Proof.
    intros H g. destruct H as [->| ->].
    - rewrite (mean_fext _ _ (fun _ => g false)); [rewrite mean_const by exact HP; ring|].
      intros x. unfold Rltb. destruct (Rlt_dec _ _); [|reflexivity]. pose proof (Hunif x). lra.
    - rewrite (mean_fext _ _ (fun _ => g true)); [rewrite mean_const by exact HP; ring|].
      intros x. unfold Rltb. destruct (Rlt_dec _ _); [reflexivity|]. pose proof (Hunif x). lra.
  Qed.
  Lemma uniform_all j : (j < J0)%nat -> forall v e v' e', uniform_ok P unif (accept (U (T j) v e) (U (T j) v' e')).
  Proof.
    intros Hj v e v' e'.
    destruct (dec (In v supp)) as [H|H], (dec (In v' supp)) as [H'|H'];
      rewrite ?(U_in _ v) by exact H; rewrite ?(U_out _ v) by exact H; rewrite ?(U_in _ v') by exact H'; rewrite ?(U_out _ v') by exact H'.
    - apply Hu; assumption.
    - apply uniform_trivial. left. reflexivity.
    - apply uniform_trivial. right. reflexivity.
    - apply uniform_trivial. left. reflexivity.
  Qed.

  Notation Kern := (fun t => rw_kernel P nrm (U t) st).
  Definition d0 : vec * xr := (fun _ => 0, Fin 0).
  (** law of the final value of the inner sampler *)
  Definition Kin (t : R) (x y : vec) : R :=
    chain_mean (Kern t) steps (x, pot t x) (fun r => if dec (fst (nth steps r d0) = y) then 1 else 0).

  Lemma chain_supp t m : forall s f f', ok t s -> (forall r, List.Forall (ok t) r -> length r = S m -> f r = f' r) ->
    chain_mean (Kern t) m s f = chain_mean (Kern t) m s f'.
  Proof.
    induction m as [|m IH]; intros s f f' Os E; cbn [chain_mean].
    - apply E; [constructor; [exact Os|constructor]|reflexivity].
    - unfold rw_kernel, walk_kernel. apply mean_fext. intros z. apply mean_fext. intros e. cbv zeta.
      set (x := fun i => fst s i + sqrt st * nrm z i).
      assert (H2 : chain_mean (Kern t) m s (fun r => f (s :: r)) = chain_mean (Kern t) m s (fun r => f' (s :: r))).
      { apply IH; [exact Os|]. intros r Fr Lr. apply E; [constructor; assumption|cbn; lia]. }
      destruct (dec (In x supp)) as [H|H].
      + assert (H1 : chain_mean (Kern t) m (x, U t x e) (fun r => f (s :: r)) = chain_mean (Kern t) m (x, U t x e) (fun r => f' (s :: r))).
        { apply IH; [split; [exact H|apply U_in; exact H]|]. intros r Fr Lr. apply E; [constructor; assumption|cbn; lia]. }
        f_equal; f_equal; [exact H1|exact H2].
      + rewrite (accept_out t s x e Os H). f_equal; [ring|]. f_equal. exact H2.
  Qed.

  Lemma kern_plus t s f g : Kern t s (fun y => f y + g y) = Kern t s f + Kern t s g.
  Proof.
    unfold rw_kernel, walk_kernel. rewrite <- mean_plus. apply mean_fext. intros z. rewrite <- mean_plus. apply mean_fext.
    intros e. cbv zeta. ring.
  Qed.
  Lemma chain_plus t m : forall s f g, chain_mean (Kern t) m s (fun r => f r + g r) = chain_mean (Kern t) m s f + chain_mean (Kern t) m s g.
  Proof.
    induction m as [|m IH]; intros s f g; cbn [chain_mean]; [reflexivity|]. rewrite <- kern_plus.
    apply (kernel_ext P P nrm (U t) accept (fun _ => sqrt st)). intros y. apply IH.
  Qed.
  Lemma chain_Rsum t m s {B} (f : B -> list (vec * xr) -> R) ys :
    chain_mean (Kern t) m s (fun r => Rsum (map (fun y => f y r) ys)) = Rsum (map (fun y => chain_mean (Kern t) m s (f y)) ys).
  Proof.
    induction ys as [|y ys IH]; cbn [map Rsum].
    - apply (chain_const P P HP HP nrm (U t) accept (fun _ => sqrt st)).
    - rewrite <- IH. apply chain_plus.
  Qed.

  Lemma kernel_law_mean t x phi : In x supp ->
    mean (kernel_law supp Kin t x) phi = chain_mean (Kern t) steps (x, pot t x) (fun r => phi (fst (nth steps r d0))).
  Proof.
    intros Hx. unfold mean, kernel_law. rewrite map_map. cbn [fst snd]. unfold Kin.
    rewrite (Rsum_ext _ (fun y => chain_mean (Kern t) steps (x, pot t x) (fun r => phi y * (if dec (fst (nth steps r d0) = y) then 1 else 0)))).
    2:{ intros y _. rewrite Rmult_comm. symmetry. apply (chain_scal P P nrm (U t) accept (fun _ => sqrt st)). }
    rewrite <- (chain_Rsum t steps (x, pot t x) (fun y r => phi y * (if dec (fst (nth steps r d0) = y) then 1 else 0)) supp).
    apply chain_supp; [split; [exact Hx|reflexivity]|]. intros r Fr Lr.
    assert (Hr : In (fst (nth steps r d0)) supp).
    { rewrite Forall_forall in Fr. apply (Fr (nth steps r d0)). apply nth_In. lia. }
    rewrite (Rsum_ext _ (fun y => if dec (fst (nth steps r d0) = y) then phi y else 0)).
    2:{ intros y _. destruct (dec _); ring. }
    apply (Rsum_single (fst (nth steps r d0)) phi supp HN). intros C. contradiction.
  Qed.

  Lemma rows : rows_ok supp Kin.
  Proof.
    intros t x _ Hx. transitivity (mean (kernel_law supp Kin t x) (fun _ => 1)).
    - unfold mean, kernel_law. rewrite map_map. cbn [fst snd]. apply Rsum_ext. intros; ring.
    - rewrite kernel_law_mean by exact Hx. apply (chain_const P P HP HP nrm (U t) accept (fun _ => sqrt st)).
  Qed.

  Lemma target_sum t psi : walk_target P (U t) density supp psi = Rsum (map (fun x => gam fp fl t x * psi (x, pot t x)) supp).
  Proof.
    unfold walk_target. apply Rsum_ext. intros x Hx.
    rewrite (mean_fext _ _ (fun _ => gam fp fl t x * psi (x, pot t x))); [apply mean_const, HP|].
    intros e. rewrite U_in by exact Hx. unfold pot, gam. cbn [density]. f_equal. f_equal. ring.
  Qed.

  Lemma inv : invariant_ok fp fl supp Kin.
  Proof.
    intros t y _ Hy.
    pose proof (chain_invariant P P HP HP nrm (U t) accept density (fun _ => sqrt st)
      (fun v e v' e' => balance_sym _ _ (U_ninf t v e) (U_ninf t v' e')) Hs supp HN) as H.
    assert (HS : forall x e, ~ In x supp -> density (U t x e) = 0) by (intros x e Hx; rewrite U_out by exact Hx; reflexivity).
    specialize (H HS (fun s => if dec (fst s = y) then 1 else 0) d0 steps steps (le_n _)).
    rewrite !target_sum in H. cbn [fst] in H. unfold Kin.
    etransitivity; [exact H|].
    rewrite (Rsum_ext _ (fun x => if dec (y = x) then gam fp fl t x else 0)).
    2:{ intros x _. destruct (dec (x = y)) as [D|D], (dec (y = x)) as [D'|D']; try congruence; ring. }
    apply (Rsum_single y (gam fp fl t) supp HN). intros C. contradiction.
  Qed.

  Definition inner (w : key -> W) := rw_inner (fun k => nrm (w k)) (fun k => unif (w k)) prior' (lik fl) steps.
  Definition ifinal (w : key -> W) (t : R) (k : key) (v : vec) : vec * xr :=
    rw_obs (fst (iterate (rw_up unif nrm (U t) w) steps (rw_startup (fun v k => U t v (w k)) v k st))).
  Definition ival w t k v : vec := fst (ifinal w t k v).

  Lemma inner_eq w t k v : exists al fk, inner w t st k v = ((ival w t k v, snd (ifinal w t k v), al), fk).
  Proof. eexists; eexists. reflexivity. Qed.

  Lemma step_ok t w s k : ok t s -> ok t (rw_step unif nrm (U t) st w s k).
  Proof.
    intros Os. unfold rw_step. set (x := rw_prop nrm st (fst s) (w (KSplit k 3 1))). cbv zeta.
    destruct (dec (In x supp)) as [H|H].
    - destruct (Rltb _ _); [|exact Os]. split; [exact H|]. apply U_in. exact H.
    - rewrite (accept_out t s x _ Os H). unfold Rltb. destruct (Rlt_dec _ _) as [L|L]; [|exact Os].
      pose proof (Hunif (w (KSplit (KSplit k 3 0) 2 1))). lra.
  Qed.

  Lemma ifinal_ok w t k v : In v supp -> ok t (ifinal w t k v).
  Proof.
    intros Hv. unfold ifinal.
    assert (H : forall m s e, ok t (rw_obs s) -> par e = st -> ok t (rw_obs (fst (iterate (rw_up unif nrm (U t) w) m (s, e))))
                /\ par (snd (iterate (rw_up unif nrm (U t) w) m (s, e))) = st).
    { induction m as [|m IH]; intros s e Os Pe; [split; assumption|].
      cbn [iterate]. destruct (IH s e Os Pe) as [O1 P1]. destruct (iterate _ m (s, e)) as [s1 e1]. cbn [fst snd] in *.
      assert (V : evaluated (U t) (rw_obs s1)).
      { destruct O1 as [I1 E1]. exists (fst (rw_obs s1)), (w k). rewrite U_in by exact I1. exact E1. }
      destruct (rw_up_step unif nrm (U t) (U_ninf t) w st s1 e1 V P1) as (A & _ & _ & B).
      split; [|exact A]. rewrite B. apply step_ok. exact O1. }
    apply H; [|reflexivity]. cbn. split; [exact Hv|]. apply U_in. exact Hv.
  Qed.

  Definition ikeys (k : key) : list key := [KSplit k 2 1] ++ path_keys rw_next_key rw_draws steps (KSplit k 2 0).
  Lemma ikeys_derived k q : In q (ikeys k) -> derived k q.
  Proof. apply rw_start_keys. Qed.

  Lemma ival_drawn j k v : (j < J0)%nat -> In v supp ->
    drawn P (ikeys k) (fun w => ival w (T j) k v) (mean (kernel_law supp Kin (T j) v)).
  Proof.
    intros Hj Hv.
    pose proof (rw_start_drawn P HP unif nrm (U (T j)) (U_ninf (T j)) (fun _ => True) st v k (S steps) I (uniform_everywhere P unif nrm (U (T j)) _ _ accept _ (uniform_all j Hj))) as H.
    cbn [Nat.sub] in H. rewrite Nat.sub_0_r in H.
    apply (drawn_map P _ _ (fun r => fst (nth steps r d0))) in H.
    apply (drawn_law P _ _ _ (mean (kernel_law supp Kin (T j) v))) in H.
    - eapply drawn_ext; [|exact H]. intros w. cbv beta.
      rewrite mcmc_run_spec by (intros; apply rw_up_iter). rewrite map_map. cbn [rw_startup snd iter].
      cbn [Nat.sub]. rewrite ?Nat.sub_0_r.
      match goal with |- fst (nth steps (map ?f (seq 0 (S steps))) d0) = _ =>
        rewrite (nth_indep _ d0 (f 0%nat)) by (rewrite map_length, seq_length; lia); rewrite (map_nth f) end.
      rewrite seq_nth by lia. reflexivity.
    - intros phi. cbv beta. rewrite kernel_law_mean by exact Hv.
      rewrite (mean_fext _ _ (fun _ => chain_mean (Kern (T j)) steps (v, pot (T j) v) (fun r => phi (fst (nth steps r d0))))).
      + apply mean_const, HP.
      + intros e. rewrite U_in by exact Hv. reflexivity.
  Qed.

  (** * Whole runs *)
  Lemma inner_ok w j k v : In v supp -> In (ival w (T j) k v) supp
    /\ exists al fk, inner w (T j) st k v = ((ival w (T j) k v, pot (T j) (ival w (T j) k v), al), fk).
  Proof.
    intros Hv. destruct (ifinal_ok w (T j) k v Hv) as [I Po]. split; [exact I|].
    destruct (inner_eq w (T j) k v) as (al & fk & E). exists al, fk. rewrite E. f_equal. f_equal. f_equal. exact Po.
  Qed.

  Definition left (k : key) : key := KSplit k 2 0.
  Lemma left_derived k : derived k (left k).
  Proof. repeat constructor. Qed.
End SL.
