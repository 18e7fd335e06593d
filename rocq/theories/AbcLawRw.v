(** The inner sampler RandomWalkABC with Metropolis, for ABC-SMC runs. *)
From Coq Require Import Reals List Arith Bool Lia Lra FunctionalExtensionality.
From Verif Require Import XR Keys LoopModel LoopSpec LoopProofs McmcModel McmcSpec McmcProofs WeightsModel WeightsSpec SmcModel SmcSpec
  UnbSpec UnbProofs KexpSpec KexpProofs RejLawProofs ChainModel ChainSpec ChainProofs SmcLawModel
  AbcModel AbcSpec AbcProofs AbcLawModel AbcLawSpec AbcLawProofs.
Import ListNotations.
Open Scope R_scope.

Section Rw.
  Context {W Data : Type}.
  Variable P : law W.
  Hypothesis HP : prob P.
  Variable unif : W -> R.
  Variable nrm : W -> nat -> R.
  Variable psamp : W -> vec.
  Variable ip : vec -> xr.
  Variable lik : vec -> W -> Data.
  Variable dist : Data -> xr.
  Variable supp : list vec.
  Variable st : nat -> R.
  Variable steps : nat.
  Hypothesis HU : forall v, ip v <> NInf.
  Hypothesis Hu : forall v v', uniform_ok P unif (accept (ip v) (ip v')).
  Hypothesis Hu0 : uniform_ok P unif 0.
  Notation core := (abc_core (Data := Data)).
  Definition prw (v : vec) (_ : W) : xr := ip v.

  Definition rw_inner (w : key -> W) : xr -> (nat -> R) -> key -> core -> core * xr :=
    rwabc_inner (fun k i => nrm (w k) i) (fun v k => prw v (w k)) (fun v k => lik v (w k)) dist (fun k => unif (w k)) steps.
  Definition rw_keys (k : key) : list key := path_keys abc_next_key abc_draws steps k.
  Definition core_of (s : vec * (xr * Data)) : core := ABC (fst s) (fst (snd s)) (snd (snd s)) (dist (snd (snd s))).
  Definition obs (c : core) : vec * (xr * Data) := (a_value c, (a_prior c, a_data c)).
  Definition rw_K (t : xr) (c : core) (f : core -> R) : R :=
    chain_mean (abc_kernel P nrm prw lik dist t st) steps (obs c) (fun r => f (core_of (nth steps r (obs c)))).
  Definition rw_ok (c : core) : Prop := a_dist c = dist (a_data c) /\ a_prior c = ip (a_value c).
  Notation upd := (abc_up unif nrm prw lik dist).
  Definition ini (t : xr) (k : key) (c : core) : mstate core * mextra abc_par :=
    (MState c (Fin 1), MExtra 0 k (ABCPar t st (fun _ => 0) (fun _ => 0))).

  Lemma rw_inner_eq w t k c : rw_inner w t st k c
    = (McmcModel.core (fst (iterate (upd w) steps (ini t k c))),
       xdiv (xsum (map (fun j => alpha (fst (iterate (upd w) (S j) (ini t k c)))) (seq 0 steps))) (INR steps)).
  Proof. reflexivity. Qed.

  Lemma upd_key w s e : rkey (snd (upd w s e)) = abc_next_key (rkey e).
  Proof. unfold abc_up, abc_update, mcmc_update, abc_always, abc_proposal, metropolis_correct. destruct (xltb _ _); reflexivity. Qed.

  Lemma upd_reads w w' s e : (forall q, In q (abc_draws (rkey e)) -> w q = w' q) -> upd w s e = upd w' s e.
  Proof.
    intros H. unfold abc_up, abc_update, mcmc_update, abc_always, abc_proposal, metropolis_correct. cbn [rkey par McmcModel.core iter alpha].
    rewrite (H (KSplit (KSplit (rkey e) 2 0) 4 1)) by (unfold abc_draws; cbn; tauto).
    rewrite (H (KSplit (KSplit (rkey e) 2 0) 4 3)) by (unfold abc_draws; cbn; tauto).
    rewrite (H (KSplit (KSplit (KSplit (rkey e) 2 0) 4 0) 2 1)) by (unfold abc_draws; cbn; tauto).
    reflexivity.
  Qed.

  Lemma iterate_reads w w' : forall m i s e, (i <= m)%nat ->
    (forall q, In q (path_keys abc_next_key abc_draws m (rkey e)) -> w q = w' q) -> iterate (upd w) i (s, e) = iterate (upd w') i (s, e).
  Proof.
    induction m as [|m IH]; intros i s e Hi H.
    - assert (i = 0%nat) by lia. subst i. reflexivity.
    - destruct i as [|i]; [reflexivity|]. rewrite !iterate_succ_l. cbn [fst snd].
      assert (E : upd w s e = upd w' s e).
      { apply upd_reads. intros q Hq. apply H. cbn [path_keys]. apply in_or_app. left. exact Hq. }
      rewrite <- E. pose proof (upd_key w s e) as Kk. destruct (upd w s e) as [s' e']. cbn [snd] in Kk.
      apply IH; [lia|]. intros q Hq. apply H. cbn [path_keys]. apply in_or_app. right. rewrite Kk in Hq. exact Hq.
  Qed.

  Lemma rw_reads t k c : reads (rw_keys k) (fun w => rw_inner w t st k c).
  Proof.
    intros w w' H. rewrite !rw_inner_eq.
    assert (E : forall i, (i <= steps)%nat -> iterate (upd w) i (ini t k c) = iterate (upd w') i (ini t k c)).
    { intros i Hi. apply (iterate_reads w w' steps i); [exact Hi|exact H]. }
    rewrite (E steps (le_n steps)). f_equal. f_equal. f_equal. apply map_ext_in. intros j Hj. apply in_seq in Hj. rewrite E by lia. reflexivity.
  Qed.

  Lemma rw_keys_derived k q : In q (rw_keys k) -> derived k q.
  Proof. apply (path_keys_derived abc_next_key abc_draws abc_next_derived abc_draws_derived). Qed.

  Lemma upd_ok w s e : rw_ok (McmcModel.core s) -> rw_ok (McmcModel.core (fst (upd w s e))).
  Proof.
    intros H. unfold abc_up, abc_update, mcmc_update, abc_always, abc_proposal, metropolis_correct.
    destruct (xltb _ _); cbn [fst McmcModel.core]; [split; reflexivity|exact H].
  Qed.
  Lemma iterate_ok w m c t k : rw_ok c -> rw_ok (McmcModel.core (fst (iterate (upd w) m (ini t k c)))).
  Proof.
    intros H. induction m as [|m IH]; [exact H|]. cbn [iterate]. destruct (iterate (upd w) m (ini t k c)) as [s e]. apply upd_ok, IH.
  Qed.
  Lemma rw_keep w t k c : rw_ok c -> rw_ok (fst (rw_inner w t st k c)).
  Proof. intros H. rewrite rw_inner_eq. apply iterate_ok, H. Qed.

  Lemma core_of_obs c : rw_ok c -> core_of (obs c) = c.
  Proof. intros [H _]. destruct c. unfold core_of, obs. cbn in *. rewrite <- H. reflexivity. Qed.

  Lemma point : exists e : W, True.
  Proof. destruct P as [|[x p] r]; [unfold prob in HP; cbn in HP; lra|exists x; exact I]. Qed.

  Lemma rw_mean t k c f : rw_ok c -> mean_on P (rw_keys k) (fun w => f (fst (rw_inner w t st k c))) (rw_K t c f).
  Proof.
    intros O. destruct point as [e0 _].
    assert (Ev : abc_evaluated prw (obs c)) by (exists (a_value c), e0; apply O).
    assert (Ue : forall x, abc_evaluated prw x -> forall z e, uniform_ok P unif (abc_accept dist t (snd x)
                   (abc_eval prw lik (abc_prop nrm (ABCPar t st (fun _ => 0) (fun _ => 0)) (fst x) z) e))).
    { intros x (v & e & E) z e'. unfold abc_accept, inside. rewrite E. cbn [abc_eval fst snd].
      destruct (xltb _ _); [rewrite Rmult_1_r; apply Hu|rewrite Rmult_0_r; exact Hu0]. }
    destruct (path_drawn P HP (abc_step unif nrm prw lik dist t (ABCPar t st (fun _ => 0) (fun _ => 0))) abc_next_key abc_draws
                (abc_kernel P nrm prw lik dist t st) (abc_evaluated prw)
                (fun w x k H => abc_step_evaluated unif nrm prw lik dist t _ w x k H)
                (fun x k H => abc_step_drawn P HP unif nrm prw lik dist t (ABCPar t st (fun _ => 0) (fun _ => 0)) x k (Ue x H))
                abc_next_derived abc_fresh abc_draws_derived steps (obs c) k Ev) as [_ D].
    specialize (D (fun r => f (core_of (nth steps r (obs c))))). unfold rw_K. refine (mean_on_ext P _ _ _ _ _ D). intros w. cbv beta.
    assert (Pa : path (abc_step unif nrm prw lik dist t (ABCPar t st (fun _ => 0) (fun _ => 0))) abc_next_key w steps (obs c) k
              = map (fun i => abc_obs (fst (iterate (upd w) i (ini t k c)))) (seq 0 (S steps))).
    { symmetry. apply (abc_path_ok unif nrm prw lik dist t (fun v _ => HU v) (ABCPar t st (fun _ => 0) (fun _ => 0)) eq_refl w steps (MState c (Fin 1)) (MExtra 0 k (ABCPar t st (fun _ => 0) (fun _ => 0)))).
      - exact Ev.
      - reflexivity. }
    rewrite Pa. rewrite rw_inner_eq. cbn [fst].
    set (g := fun i => abc_obs (fst (iterate (upd w) i (ini t k c)))).
    rewrite (nth_indep _ (obs c) (g 0%nat)) by (rewrite map_length, seq_length; lia). rewrite (map_nth g), seq_nth by lia. cbn [plus].
    unfold g. f_equal. apply (core_of_obs (McmcModel.core (fst (iterate (upd w) steps (ini t k c))))). apply iterate_ok, O.
  Qed.

  Lemma nn_alpha x : nn (clean_alpha (xmin (Fin 1) (xmul (xexp x) (xbool true)))) /\ nn (clean_alpha (xmin (Fin 1) (xmul (xexp x) (xbool false)))).
  Proof.
    destruct x as [r| | |]; cbn; unfold Rleb; repeat destruct (Rlt_dec _ _); repeat destruct (Rle_dec _ _); cbn;
      split; try lra; try exact I; pose proof (exp_pos r); nra.
  Qed.
  Lemma upd_nn w s e : nn (alpha (fst (upd w s e))).
  Proof.
    unfold abc_up, abc_update, mcmc_update, abc_always, abc_proposal, metropolis_correct, abc_acceptance.
    match goal with |- context [xbool ?b] => destruct b end; destruct (xltb (Fin _) _); cbn [fst alpha]; apply nn_alpha.
  Qed.
  Lemma rw_nn w t s k c : nn (snd (rw_inner w t s k c)).
  Proof.
    unfold rw_inner, rwabc_inner. cbv zeta. cbn [snd]. apply nn_div, nn_sum. intros x Hx. apply in_map_iff in Hx. destruct Hx as (j & <- & _).
    cbn [iterate]. match goal with |- context [iterate ?u j ?i] => destruct (iterate u j i) as [s' e'] end. apply (upd_nn w s' e').
  Qed.

  Hypothesis Hsym : symmetric_steps P nrm.
  Hypothesis HN : NoDup supp.
  Hypothesis Hout : forall x, ~ In x supp -> density (ip x) = 0.
  Hypothesis Hps : forall phi, mean P (fun a => phi (psamp a)) = Rsum (map (fun x => density (ip x) * phi x) supp) / Rsum (map (fun x => density (ip x)) supp).

  (** the prior draws *)
  Lemma start_value f : start_law P psamp prw lik dist f
    = Rsum (map (fun x => density (ip x) * mean P (fun e => f (ABC x (ip x) (lik x e) (dist (lik x e))))) supp) / Rsum (map (fun x => density (ip x)) supp).
  Proof.
    unfold start_law, drawn_core, prw.
    rewrite <- (Hps (fun x => mean P (fun e => f (ABC x (ip x) (lik x e) (dist (lik x e)))))).
    apply mean_fext. intros a. apply (mean_const P (mean P (fun c => f (ABC (psamp a) (ip (psamp a)) (lik (psamp a) c) (dist (lik (psamp a) c))))) HP).
  Qed.

  Lemma start_walk t f : (forall x e, In x supp -> dist (lik x e) <> t) -> num t -> (forall d, num (dist d)) ->
    Rsum (map (fun x => density (ip x) * mean P (fun e => within_thr t (ABC x (ip x) (lik x e) (dist (lik x e))) * f (ABC x (ip x) (lik x e) (dist (lik x e))))) supp)
    = walk_target (pair_law P P) (abc_eval prw lik) (abc_density dist t) supp (fun s => f (core_of s)).
  Proof.
    intros Ht Nt Nd. unfold walk_target. apply Rsum_ext. intros x Hx. rewrite mean_pair.
    unfold abc_eval, abc_density, core_of, prw. cbn [fst snd].
    rewrite (mean_const P _ HP). rewrite <- mean_scal. apply mean_fext. intros e.
    rewrite <- Rmult_assoc. f_equal. f_equal. unfold within_thr, inside. cbn [a_dist].
    specialize (Ht x e Hx). specialize (Nd (lik x e)). destruct (dist (lik x e)) as [a| | |], t as [b| | |]; cbn; try reflexivity; try congruence.
    unfold Rleb, Rltb. destruct (Rle_dec a b), (Rlt_dec a b); try reflexivity; [|lra]. exfalso. apply Ht. f_equal. lra.
  Qed.

  Lemma rw_invariant t f : (forall x e, In x supp -> dist (lik x e) <> t) -> num t -> (forall d, num (dist d)) ->
    start_law P psamp prw lik dist (fun c => within_thr t c * rw_K t c f) = start_law P psamp prw lik dist (fun c => within_thr t c * f c).
  Proof.
    intros Ht Nt Nd. rewrite !start_value. f_equal.
    rewrite (start_walk t (fun c => rw_K t c f) Ht Nt Nd), (start_walk t f Ht Nt Nd).
    assert (HS' : forall x e, ~ In x supp -> abc_density dist t (abc_eval prw lik x e) = 0).
    { intros x e Hx. unfold abc_density, abc_eval, prw. cbn [fst]. rewrite Hout by exact Hx. ring. }
    destruct point as [e0 _].
    set (d := ((fun _ => 0, (NaN, lik (fun _ => 0) e0)) : vec * (xr * Data))).
    rewrite <- (chain_invariant P (pair_law P P) HP (pair_prob P P HP HP) nrm (abc_eval prw lik) (abc_accept dist t) (abc_density dist t)
        (fun i => sqrt (st i)) (abc_balance prw lik dist t (fun v _ => HU v)) Hsym supp HN HS' (fun s => f (core_of s)) d steps steps) by lia.
    unfold walk_target. apply Rsum_ext. intros x _. apply mean_fext. intros e. f_equal. unfold rw_K, abc_kernel.
    assert (L : forall m y phi psi, (forall r, length r = S m -> phi r = psi r) ->
              chain_mean (walk_kernel P (pair_law P P) nrm (abc_eval prw lik) (abc_accept dist t) (fun i => sqrt (st i))) m y phi
              = chain_mean (walk_kernel P (pair_law P P) nrm (abc_eval prw lik) (abc_accept dist t) (fun i => sqrt (st i))) m y psi).
    { induction m as [|m IH]; intros y phi psi H; cbn [chain_mean]; [apply H; reflexivity|].
      unfold walk_kernel at 1 3. apply mean_fext. intros z. apply mean_fext. intros e'. cbv zeta.
      f_equal; f_equal; apply IH; intros r Hr; apply H; cbn; rewrite Hr; reflexivity. }
    change (obs (core_of (x, abc_eval prw lik x e))) with (x, abc_eval prw lik x e).
    apply L. intros r Hr. f_equal. f_equal. apply nth_indep. lia.
  Qed.
End Rw.
