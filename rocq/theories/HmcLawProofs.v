(** Proofs: the law of Underdamped runs, and its invariance. *)
From Coq Require Import Reals List Arith Bool Lia Lra FunctionalExtensionality.
From Verif Require Import XR Keys LoopModel LoopSpec McmcModel McmcSpec McmcProofs HmcModel HmcSpec HmcProofs WeightsSpec
  UnbSpec UnbProofs KexpSpec KexpProofs RejLawProofs ChainModel ChainSpec ChainProofs HmcLawModel HmcLawSpec.
Import ListNotations.
Open Scope R_scope.

Lemma iter_swap {A} n (f : A -> A) x : Nat.iter n f (f x) = f (Nat.iter n f x).
Proof. induction n as [|n IH]; cbn; [reflexivity|]. unfold Nat.iter in IH. rewrite IH. reflexivity. Qed.

Section Run.
  Context {W : Type}.
  Variable P : law W.
  Hypothesis HP : prob P.
  Variable unif : W -> R.
  Variable nrm : W -> nat -> R.
  Variable psamp : W -> vec.
  Variable d L : nat.
  Variables pg0 pg1 : vec -> xr * vec.
  Variable T : R.
  Variable p : hpar.
  Notation eps := (h_stepsize p).
  Notation c := (ou_decay p).
  Notation tpot := (tempered_pot pg0 pg1 T).
  Notation tgrad := (tempered_grad pg0 pg1 T).
  Notation pp := (fun v (_ : key) => pg0 v).
  Notation lp := (fun v (_ : key) => pg1 v).
  Notation K := (hmc_kernel d tpot tgrad eps P nrm L c).
  Notation tr := (trajectory tgrad eps L).
  Notation en := (energy d tpot).
  Hypothesis HU : forall v, tpot v <> NInf.
  Definition obs (s : hstate) : phase := (h_value s, h_mom s).
  Definition coh (s : hstate) : Prop := coherent pp lp T s.

  Lemma coh_pot s : coh s -> h_pot s = tpot (h_value s).
  Proof. intros (k & A & B & C & _). unfold tempered_pot. rewrite A, B. exact C. Qed.
  Lemma coh_gpot s : coh s -> h_gpot s = tgrad (h_value s).
  Proof. intros (k & A & B & _ & D). apply functional_extensionality. intros i. unfold tempered_grad. rewrite A, B. apply D. Qed.

  Lemma step_verlet s k : coh s -> obs (fst (leapfrog_step pp lp T (fun m => m) eps s k)) = verlet tgrad eps (obs s).
  Proof.
    intros H. unfold leapfrog_step, obs, verlet, vkick, vdrift. cbn [fst snd h_value h_mom].
    assert (E0 : vadd (h_mom s) (vscale (- (eps / 2)) (h_gpot s)) = (fun i => h_mom s i - eps / 2 * tgrad (h_value s) i)).
    { apply functional_extensionality. intros i. unfold vadd, vscale. rewrite (coh_gpot s H). lra. }
    rewrite E0. set (m := fun i => h_mom s i - eps / 2 * tgrad (h_value s) i).
    set (v := vadd (h_value s) (vscale eps m)).
    change (fun i => h_value s i + eps * m i) with v.
    pose proof (coherent_at_value pp lp T v m k) as Hc.
    assert (E1 : h_value (at_value pp lp T v m k) = v).
    { unfold at_value. destruct (pg0 v), (pg1 v). reflexivity. }
    rewrite (coh_gpot _ Hc), E1. f_equal. apply functional_extensionality. intros i. unfold vadd at 1, vscale at 1.
    change (tgrad (fun i0 => h_value s i0 + eps * (h_mom s i0 - eps / 2 * tgrad (h_value s) i0))) with (tgrad v). unfold m. lra.
  Qed.

  Lemma walk_verlet ks : forall s, coh s ->
    obs (walk pp lp T (fun m => m) eps s ks) = Nat.iter (length ks) (verlet tgrad eps) (obs s).
  Proof.
    induction ks as [|k ks IH]; intros s H; [reflexivity|]. cbn [walk length].
    rewrite IH by apply step_coherent. rewrite step_verlet by exact H.
    rewrite iter_swap. reflexivity.
  Qed.

  Lemma flip_obs s : obs (flip s) = (fst (obs s), fun i => - snd (obs s) i).
  Proof. reflexivity. Qed.

  Lemma prop_obs s e : coh (core s) -> par e = p -> obs (core (fst (ud_proposal pp lp T L s e))) = tr (obs (core s)).
  Proof.
    intros H E. unfold ud_proposal. cbn [fst core]. rewrite E, leapfrog_last_walk, flip_obs, walk_verlet by exact H.
    unfold split_keys. rewrite map_length, seq_length. reflexivity.
  Qed.

  Lemma kinetic_fold m : kinetic d m = fold_right (fun i s => m i * m i + s) 0 (seq 0 d) / 2 + INR d * ln (2 * PI) / 2.
  Proof. unfold kinetic. rewrite vdot_inner. reflexivity. Qed.

  Lemma ud_accept_value s e s' e' : coh (core s) -> coh (core s') ->
    clean_alpha (ud_acceptance d s e s' e') = Fin (accept (en (obs (core s))) (en (obs (core s')))).
  Proof.
    intros H H'. unfold ud_acceptance, energy, obs. cbn [fst snd]. rewrite !kinetic_fold.
    rewrite (coh_pot _ H), (coh_pot _ H').
    pose proof (HU (h_value (core s))) as N. pose proof (HU (h_value (core s'))) as N'.
    set (a := fold_right _ _ _). set (b := fold_right _ _ _). set (q := INR d * _ / 2).
    destruct (tpot (h_value (core s))) as [x| | |], (tpot (h_value (core s'))) as [y| | |]; cbn; try congruence; try reflexivity.
    - unfold Rleb, Rmin.
      match goal with |- context [exp ?u] => match goal with |- context [exp (x + b / 2 - ?r)] => replace u with (x + b / 2 - r) by lra end end.
      destruct (Rle_dec _ _); cbn; reflexivity.
    - unfold Rleb. destruct (Rle_dec _ _); cbn; [lra|reflexivity].
  Qed.

  Definition ud_draw_keys (k : key) : list key := [KSplit k 2 1; KSplit (KSplit (KSplit k 2 0) (S L) 0) 2 1].
  Definition ud_next_key (k : key) : key := KSplit (KSplit (KSplit k 2 0) (S L) 0) 2 0.
  Definition hmc_step (w : key -> W) (z : phase) (k : key) : phase :=
    let y := refreshed c z (nrm (w (KSplit k 2 1))) in
    if Rltb (unif (w (KSplit (KSplit (KSplit k 2 0) (S L) 0) 2 1))) (accept (en y) (en (tr y))) then tr y else y.

  Definition can (z : phase) : Prop := forall u, let y := refreshed c z (nrm u) in uniform_ok P unif (accept (en y) (en (tr y))).
  Lemma hmc_step_drawn z k : can z -> drawn P (ud_draw_keys k) (fun w => hmc_step w z k) (K z).
  Proof.
    intros Hu. pose (ku := KSplit (KSplit (KSplit k 2 0) (S L) 0) 2 1).
    apply (drawn_bind P [KSplit k 2 1] [ku] (fun w => refreshed c z (nrm (w (KSplit k 2 1))))
             (fun y w => if Rltb (unif (w ku)) (accept (en y) (en (tr y))) then tr y else y)
             (fun phi => mean P (fun u => phi (refreshed c z (nrm u))))
             (fun y phi => accept (en y) (en (tr y)) * phi (tr y) + (1 - accept (en y) (en (tr y))) * phi y)).
    - apply (drawn_key P HP (KSplit k 2 1) (fun u => refreshed c z (nrm u))).
    - unfold ku. intros q [<-|[]] [H|[]]; apply (f_equal ksize) in H; cbn in H; lia.
    - intros w. apply (metropolis_drawn P HP unif (T := phase)). apply Hu.
  Qed.

  Definition up (w : key -> W) := ud_update d (fun k i => nrm (w k) i) pp lp T L (fun k => unif (w k)).

  Lemma decay2 : ou_decay2 p = c * c.
  Proof.
    unfold ou_decay2, ou_decay. destruct (h_friction p) as [g|]; [|lra].
    rewrite <- exp_plus. f_equal. lra.
  Qed.

  Lemma up_step w s e : coh (core s) -> par e = p ->
    coh (core (fst (up w s e))) /\ par (snd (up w s e)) = p /\ rkey (snd (up w s e)) = ud_next_key (rkey e)
    /\ iter (snd (up w s e)) = S (iter e)
    /\ obs (core (fst (up w s e))) = hmc_step w (obs (core s)) (rkey e).
  Proof.
    intros H E. unfold up. split; [apply ud_coherent_step, H|].
    unfold ud_update, mcmc_update.
    set (e1 := MExtra (S (iter e)) (rkey e) (par e)).
    destruct (ud_always (fun k i => nrm (w k) i) s e1) as [rs re] eqn:E1.
    assert (Hrs : coh (core rs) /\ par re = p /\ rkey re = KSplit (rkey e) 2 0 /\ iter re = S (iter e)
                  /\ obs (core rs) = refreshed c (obs (core s)) (nrm (w (KSplit (rkey e) 2 1)))).
    { unfold ud_always in E1. injection E1 as <- <-. cbn [core par rkey iter e1]. split; [exact H|].
      repeat split; [exact E|]. unfold obs, refreshed. cbn [set_mom h_value h_mom fst snd]. f_equal.
      apply functional_extensionality. intros i. unfold vadd, vscale, vopp. rewrite E, decay2. ring. }
    destruct Hrs as (Hc & Hp & Hk & Hi & Ho).
    destruct (ud_proposal pp lp T L rs re) as [ps pe] eqn:E2.
    assert (Hps : coh (core ps) /\ par pe = p /\ rkey pe = KSplit (rkey re) (S L) 0 /\ iter pe = iter re
                  /\ obs (core ps) = tr (obs (core rs))).
    { pose proof (prop_obs rs re Hc Hp) as Q. rewrite E2 in Q. cbn [fst] in Q.
      unfold ud_proposal in E2. injection E2 as <- <-. cbn [core par rkey iter]. split.
      - apply coherent_flip. rewrite leapfrog_last_walk. apply walk_coherent, Hc.
      - split; [exact Hp|]. split; [reflexivity|]. split; [reflexivity|exact Q]. }
    destruct Hps as (Hc' & Hp' & Hk' & Hi' & Ho').
    unfold metropolis_correct. rewrite (ud_accept_value rs re ps pe Hc Hc'). cbn [xltb].
    unfold hmc_step. rewrite <- Ho, <- Ho', Hk', Hk. unfold ud_next_key.
    destruct (Rltb _ _); cbn [fst snd core par rkey iter]; (split; [assumption|]; split; [reflexivity|]; split; [congruence|reflexivity]).
  Qed.

  Lemma up_iter w s e : iter (snd (up w s e)) = S (iter e).
  Proof. unfold up. apply (proj2 (ud_update_cases d (fun k i => nrm (w k) i) pp lp T L (fun k => unif (w k)) s e)). Qed.

  Lemma hmc_next k : derived k (ud_next_key k).
  Proof. unfold ud_next_key. repeat constructor. Qed.
  Lemma hmc_draws_derived k q : In q (ud_draw_keys k) -> derived k q.
  Proof. intros [<-|[<-|[]]]; repeat constructor. Qed.
  Lemma hmc_fresh k q : In q (ud_draw_keys k) -> derived (ud_next_key k) q -> False.
  Proof.
    unfold ud_next_key. intros [<-|[<-|[]]] H.
    - apply (incomp_children k 2 0 2 1 (or_intror (O_S 0)) (KSplit k 2 1)); [|constructor].
      apply (derived_trans _ (KSplit (KSplit (KSplit k 2 0) (S L) 0) 2 0)); [repeat constructor|exact H].
    - apply derived_split_inv in H. lia.
  Qed.

  Definition rec (s : mstate hstate) : phase := obs (core s).

  Lemma run_path v m k n w : map rec (mcmc_run (up w) n (ud_startup pp lp T v m k p))
    = path hmc_step ud_next_key w (n - 1) (v, m) (KSplit k 3 0).
  Proof.
    rewrite mcmc_run_spec by (intros; apply up_iter). rewrite map_map.
    cbn [ud_startup snd iter]. rewrite Nat.sub_0_r. unfold ud_startup.
    etransitivity.
    - refine (iterate_path w (up w) rec rkey (fun s e => coh (core s) /\ par e = p) hmc_step ud_next_key _ (n - 1) _ _ _).
      + intros s e [A B]. destruct (up_step w s e A B) as (A' & B' & C & _ & D). exact (conj (conj A' B') (conj C D)).
      + split; [apply coherent_at_value|reflexivity].
    - unfold rec, obs, at_value. cbn [core rkey]. destruct (pg0 v), (pg1 v). reflexivity.
  Qed.

  Variable start0 : phase -> Prop.
  Notation reach := (hmc_reach tgrad eps nrm L c start0).
  Variable n : nat.
  Hypothesis Hu : hmc_uniform d tpot tgrad eps P unif nrm L c start0 (n - 1).

  Lemma start_drawn v m k : start0 (v, m) -> drawn P (path_keys ud_next_key ud_draw_keys (n - 1) (KSplit k 3 0))
    (fun w => map rec (mcmc_run (up w) n (ud_startup pp lp T v m k p)))
    (chain_mean K (n - 1) (v, m)).
  Proof.
    intros Hs. eapply drawn_ext. { intros w. symmetry. apply run_path. }
    apply (path_drawn_upto P HP hmc_step ud_next_key ud_draw_keys K reach (n - 1)) with (i := 0%nat); [| | | | | |lia].
    - intros i w z k' H. unfold hmc_step. destruct (Rltb _ _); [apply reach_move|apply reach_stay]; exact H.
    - intros i z k' H Hi. apply hmc_step_drawn. intros u. exact (Hu i z u H Hi).
    - apply hmc_next.
    - apply hmc_fresh.
    - apply hmc_draws_derived.
    - apply reach_start, Hs.
  Qed.

  Definition m0 (st : start) (m : option vec) : vec := match st, m with Given _, Some m => m | _, _ => fun _ => 0 end.

  (** the points where the run can start *)
  Definition starts (st : start) (m : option vec) : Prop :=
    match st with Prior => forall u, start0 (psamp u, fun _ => 0) | Given v => start0 (v, m0 st m) | Zeros => start0 (fun _ => 0, fun _ => 0) end.

  Lemma ud_run_drawn st m k : starts st m -> exists ks, drawn P ks
    (fun w => map rec (mcmc_run (up w) n (ud_begin (fun k => psamp (w k)) pp lp T st m k p)))
    (fun phi => start_mean P psamp st (fun v => chain_mean K (n - 1) (v, m0 st m) phi)).
  Proof.
    unfold ud_begin, m0, starts. intros Hs. destruct st as [v| |]; cbn [initial_value fst snd start_mean].
    - eexists. apply start_drawn. exact Hs.
    - eexists. apply (drawn_bind P [KSplit k 2 1] (path_keys ud_next_key ud_draw_keys (n - 1) (KSplit (KSplit k 2 0) 3 0))
        (fun w => psamp (w (KSplit k 2 1)))
        (fun v w => map rec (mcmc_run (up w) n (ud_startup pp lp T v (fun _ => 0) (KSplit k 2 0) p)))
        (fun phi => mean P (fun x => phi (psamp x)))
        (fun v phi => chain_mean K (n - 1) (v, fun _ => 0) phi)).
      + apply (drawn_key P HP (KSplit k 2 1) psamp).
      + intros q [<-|[]] H. apply (path_keys_derived ud_next_key ud_draw_keys) in H; [|apply hmc_next|apply hmc_draws_derived].
        apply (incomp_children k 2 0 2 1 (or_intror (O_S 0)) (KSplit k 2 1)); [|constructor].
        apply (derived_trans _ (KSplit (KSplit k 2 0) 3 0)); [repeat constructor|exact H].
      + intros w. apply start_drawn, Hs.
    - eexists. apply start_drawn. exact Hs.
  Qed.
End Run.

(** * The scheme is reversible *)
Section Rev.
  Variable grad : vec -> vec.
  Variable eps : R.
  Definition pflip (z : phase) : phase := (fst z, fun i => - snd z i).
  Lemma pflip_flip z : pflip (pflip z) = z.
  Proof. destruct z as [q m]. unfold pflip. cbn. f_equal. apply functional_extensionality. intros i. ring. Qed.
  Lemma vkick_flip z : vkick grad eps (pflip (vkick grad eps z)) = pflip z.
  Proof. destruct z as [q m]. unfold vkick, pflip. cbn. f_equal. apply functional_extensionality. intros i. ring. Qed.
  Lemma vdrift_flip z : vdrift eps (pflip (vdrift eps z)) = pflip z.
  Proof. destruct z as [q m]. unfold vdrift, pflip. cbn. f_equal. apply functional_extensionality. intros i. ring. Qed.
  Lemma verlet_flip z : verlet grad eps (pflip (verlet grad eps z)) = pflip z.
  Proof. unfold verlet. rewrite vkick_flip, vdrift_flip, vkick_flip. reflexivity. Qed.
  Lemma iter_flip n : forall z, Nat.iter n (verlet grad eps) (pflip (Nat.iter n (verlet grad eps) z)) = pflip z.
  Proof.
    induction n as [|n IH]; intros z; [reflexivity|].
    set (f := verlet grad eps).
    change (f (Nat.iter n f (pflip (f (Nat.iter n f z)))) = pflip z).
    rewrite <- iter_swap. unfold f at 2 3. rewrite verlet_flip. apply IH.
  Qed.
  Lemma trajectory_involution L z : trajectory grad eps L (trajectory grad eps L z) = z.
  Proof.
    change (pflip (Nat.iter L (verlet grad eps) (pflip (Nat.iter L (verlet grad eps) z))) = z).
    rewrite iter_flip. apply pflip_flip.
  Qed.
End Rev.

(** * Invariance *)
Section Inv.
  Context {W : Type}.
  Variable P : law W.
  Hypothesis HP : prob P.
  Variable nrm : W -> nat -> R.
  Variable d L : nat.
  Variable pot : vec -> xr.
  Variable grad : vec -> vec.
  Variables eps c : R.
  Hypothesis HU : forall v, pot v <> NInf.
  Notation K := (hmc_kernel d pot grad eps P nrm L c).
  Notation tr := (trajectory grad eps L).
  Notation en := (energy d pot).
  Notation bz := (boltzmann d pot).
  Variable mu : law phase.
  Hypothesis HT : forall f : phase -> R, mean mu (fun z => f (tr z)) = mean mu f.
  Hypothesis HR : forall f : phase -> R,
    mean mu (fun z => bz z * mean P (fun u => f (refreshed c z (nrm u)))) = mean mu (fun z => bz z * f z).

  Lemma energy_ninf z : en z <> NInf.
  Proof. unfold energy. pose proof (HU (fst z)). destruct (pot (fst z)); cbn; congruence. Qed.

  Lemma hmc_invariant phi : mean mu (fun z => bz z * K z phi) = mean mu (fun z => bz z * phi z).
  Proof.
    unfold hmc_kernel. cbv zeta.
    rewrite (HR (fun y => accept (en y) (en (tr y)) * phi (tr y) + (1 - accept (en y) (en (tr y))) * phi y)).
    assert (E : mean mu (fun y => bz y * (accept (en y) (en (tr y)) * phi (tr y)))
              = mean mu (fun y => bz y * (accept (en y) (en (tr y)) * phi y))).
    { rewrite <- (HT (fun y => bz y * (accept (en y) (en (tr y)) * phi y))).
      apply mean_fext. intros z. rewrite trajectory_involution.
      pose proof (balance_sym (en z) (en (tr z)) (energy_ninf z) (energy_ninf (tr z))) as B.
      unfold boltzmann. rewrite <- !Rmult_assoc. rewrite B. reflexivity. }
    etransitivity; [|apply Rplus_eq_reg_r with (- mean mu (fun y => bz y * (accept (en y) (en (tr y)) * phi y))); reflexivity].
    transitivity (mean mu (fun y => bz y * (accept (en y) (en (tr y)) * phi (tr y)))
                + (mean mu (fun y => bz y * phi y) - mean mu (fun y => bz y * (accept (en y) (en (tr y)) * phi y)))).
    - unfold Rminus. rewrite <- (Rmult_1_l (- mean mu _)), <- Ropp_mult_distr_r, Ropp_mult_distr_l, <- mean_scal, <- !mean_plus.
      apply mean_fext. intros z. ring.
    - rewrite E. ring.
  Qed.

  Lemma hmc_const z a : K z (fun _ => a) = a.
  Proof.
    unfold hmc_kernel. cbv zeta. transitivity (mean P (fun _ : W => a)); [|apply mean_const, HP].
    apply mean_fext. intros u. ring.
  Qed.
  Lemma hmc_chain_const a : forall n z, chain_mean K n z (fun _ => a) = a.
  Proof.
    induction n as [|n IH]; intros z; cbn [chain_mean]; [reflexivity|].
    transitivity (K z (fun _ => a)); [|apply hmc_const].
    unfold hmc_kernel. cbv zeta. apply mean_fext. intros u. rewrite !IH. reflexivity.
  Qed.
  Lemma hmc_ext z f g : (forall y, f y = g y) -> K z f = K z g.
  Proof. intros H. unfold hmc_kernel. cbv zeta. apply mean_fext. intros u. rewrite !H. reflexivity. Qed.

  Lemma hmc_chain_invariant phi e : forall t n, (t <= n)%nat ->
    mean mu (fun z => bz z * chain_mean K n z (fun r => phi (nth t r e))) = mean mu (fun z => bz z * phi z).
  Proof.
    induction t as [|t IH]; intros n Hn.
    - apply mean_fext. intros z. f_equal. destruct n as [|n]; [reflexivity|].
      cbn [chain_mean nth]. transitivity (K z (fun _ => phi z)); [|apply hmc_const].
      apply hmc_ext. intros y. apply hmc_chain_const.
    - destruct n as [|n]; [lia|]. cbn [chain_mean nth].
      rewrite (hmc_invariant (fun y => chain_mean K n y (fun l => phi (nth t l e)))). apply IH. lia.
  Qed.
End Inv.
