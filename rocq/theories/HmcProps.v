(** Property theorems C14, C15, C16. *)
From Coq Require Import Reals List Arith Bool Lia Lra FunctionalExtensionality.
From Verif Require Import XR Keys LoopModel LoopSpec McmcModel McmcSpec McmcProofs HmcModel HmcSpec HmcProofs.
Import ListNotations.
Open Scope R_scope.

(** C14: integrate, flip, integrate the same number of steps, flip: the exact
    starting state, for every deterministic target, any stepsize and number of
    steps, plain or preconditioned by any odd map. *)
Theorem C14_leapfrog_reversible :
  forall (prior_pg lik_pg : vec -> key -> xr * vec) (T : R) (minv : vec -> vec) (eps : R)
         (s : hstate) (keys keys' : list key),
  deterministic prior_pg -> deterministic lik_pg ->
  (forall p i, minv (vopp p) i = - minv p i) ->
  coherent prior_pg lik_pg T s -> length keys = length keys' ->
  let integrate s ks := leapfrog_last prior_pg lik_pg T minv eps s ks in
  flip (integrate (flip (integrate s keys)) keys') = s.
Proof.
  intros pp lp T minv eps s ks ks' Hp Hl Hm Hs Hlen integrate. unfold integrate.
  rewrite !leapfrog_last_walk.
  exact (walk_reverse pp lp T minv eps Hm Hp Hl s ks ks' Hs Hlen).
Qed.
Print Assumptions C14_leapfrog_reversible.

(** The recorded path: L+1 states and 2L+1 momenta, starting at the start. *)
Theorem C14_path_shape :
  forall (prior_pg lik_pg : vec -> key -> xr * vec) (T : R) (minv : vec -> vec) (eps : R)
         (s : hstate) (keys : list key) (s0 : hstate) (m0 : vec),
  let '(states, momenta) := leapfrog prior_pg lik_pg T minv eps s keys in
  length states = S (length keys)
  /\ length momenta = (2 * length keys + 1)%nat
  /\ nth 0 states s0 = s /\ nth 0 momenta m0 = h_mom s
  /\ Forall (fun s' => s' = s \/ coherent prior_pg lik_pg T s') states.
Proof.
  intros pp lp T minv eps s ks s0 m0. unfold leapfrog.
  destruct (scan_lengths pp lp T minv eps s ks) as [H1 H2].
  repeat split.
  - cbn [length]. rewrite map_length, H1. reflexivity.
  - cbn [length]. rewrite H2. lia.
  - constructor; [auto|].
    clear H1 H2. generalize s at 2. revert s. induction ks as [|k ks IH]; intros s s1; [constructor|].
    cbn [scan]. destruct (step_shape pp lp T minv eps s1 k) as [ph E]. rewrite E.
    pose proof (step_coherent pp lp T minv eps s1 k) as Hc.
    set (n := fst (leapfrog_step pp lp T minv eps s1 k)) in *. clearbody n.
    specialize (IH s n). destruct (scan _ n ks) as [c os]. cbn [snd map fst] in *.
    constructor; auto.
Qed.
Print Assumptions C14_path_shape.

Definition harmonic : vec -> key -> xr * vec := fun v _ => (Fin (v 0%nat * v 0%nat / 2), v).
Definition flat : vec -> key -> xr * vec := fun _ _ => (Fin 0, fun _ => 0).

Example C14_example :
  deterministic harmonic /\ deterministic flat
  /\ coherent harmonic flat 1 (at_value harmonic flat 1 (fun _ => 3) (fun _ => 1) (KRoot 0))
  /\ h_mom (leapfrog_last harmonic flat 1 (fun p => p) (1/2)
        (at_value harmonic flat 1 (fun _ => 3) (fun _ => 1) (KRoot 0)) [KRoot 1]) 0%nat = - (17 / 32).
Proof.
  repeat split; try (intros v k k'; reflexivity).
  - apply coherent_at_value.
  - cbn. unfold vadd, vscale. cbn. lra.
Qed.

(** C15: along any run of Underdamped with Metropolis from its startup, every
    state is coherent. *)
Theorem C15_chain_coherent :
  forall d normal prior_pg lik_pg T L uniform (v m : vec) (k : key) (p : hpar) (n : nat) s,
  In s (mcmc_run (ud_update d normal prior_pg lik_pg T L uniform) n
          (ud_startup prior_pg lik_pg T v m k p)) ->
  coherent prior_pg lik_pg T (core s).
Proof.
  intros d normal pp lp T L uniform v m k p n s Hin.
  rewrite (mcmc_run_spec _ n) in Hin
    by (intros s0 e0; exact (proj1 (proj2 (ud_update_cases d normal pp lp T L uniform s0 e0)))).
  apply in_map_iff in Hin. destruct Hin as (i & <- & _).
  apply ud_coherent_iterate. apply coherent_at_value.
Qed.
Print Assumptions C15_chain_coherent.

(** The proposal map is an involution and, with the acceptance probability used,
    in detailed balance with exp(-potential) times the standard Gaussian density
    of the momenta; the target may vanish. *)
Theorem C15_proposal_involution :
  forall d prior_pg lik_pg T L (s : mstate hstate) (e e' e'' : mextra hpar),
  deterministic prior_pg -> deterministic lik_pg ->
  coherent prior_pg lik_pg T (core s) -> par e' = par e ->
  let s' := fst (ud_proposal prior_pg lik_pg T L s e) in
  core (fst (ud_proposal prior_pg lik_pg T L s' e')) = core s
  /\ ((finite (h_pot (core s)) \/ h_pot (core s) = PInf) ->
      (finite (h_pot (core s')) \/ h_pot (core s') = PInf) ->
      let weight s := density (h_pot (core s)) * exp (- (inner d (h_mom (core s)) (h_mom (core s)) / 2)) in
      weight s * xval (clean_alpha (ud_acceptance d s e s' e''))
      = weight s' * xval (clean_alpha (ud_acceptance d s' e' s e''))).
Proof.
  intros d pp lp T L s e e' e'' Hp Hl Hc He s'. split.
  - unfold s', ud_proposal. cbn [fst core]. rewrite He, !leapfrog_last_walk.
    apply walk_reverse; auto.
    unfold split_keys. rewrite !map_length, !seq_length. reflexivity.
  - intros H1 H2 weight. unfold weight. rewrite <- !vdot_inner.
    pose proof (ud_balance_x _ _ (kinetic d (h_mom (core s))) (kinetic d (h_mom (core s'))) H1 H2) as B.
    assert (K : forall m, exp (- kinetic d m) = exp (- (vdot d m m / 2)) * exp (- (INR d * ln (2 * PI) / 2))).
    { intros m. unfold kinetic. rewrite <- exp_plus. f_equal. lra. }
    rewrite !K in B. apply Rmult_eq_reg_l with (exp (- (INR d * ln (2 * PI) / 2))).
    + etransitivity; [|etransitivity; [exact B|]]; unfold ud_acc_x, ud_acceptance; ring.
    + apply Rgt_not_eq, exp_pos.
Qed.
Print Assumptions C15_proposal_involution.

(** Momentum bookkeeping over one update, with [p1] the refreshed momenta:
    after a rejection the position, potentials and gradients are the old ones
    and the momenta are [p1] (reversed by the next refreshment); after an
    acceptance they are minus the integrated momenta (reversed back by it).
    The refreshment [c p + sqrt(1-c2) xi] has c in [0,1] and c^2 + (1-c2) = 1 (so
    it keeps the standard Gaussian), and touches nothing else. *)
Theorem C15_momenta :
  forall d normal prior_pg lik_pg T L uniform (s : mstate hstate) (e : mextra hpar),
  (forall g, h_friction (par e) = Some g -> 0 <= g * h_stepsize (par e)) ->
  let c := ou_decay (par e) in
  let b := sqrt (1 - ou_decay2 (par e)) in
  let xi := normal (KSplit (rkey e) 2 1) in
  let p1 := fun i => - c * h_mom (core s) i + b * xi i in
  let cur := set_mom (core s) p1 in
  let new := core (fst (ud_update d normal prior_pg lik_pg T L uniform s e)) in
  0 <= c <= 1 /\ c * c + b * b = 1
  /\ (new = cur
      \/ exists keys, length keys = L
         /\ new = flip (leapfrog_last prior_pg lik_pg T (fun p => p) (h_stepsize (par e)) cur keys)).
Proof.
  intros d normal pp lp T L uniform s e Hg c b xi p1 cur new.
  assert (Hc : 0 <= c <= 1 /\ ou_decay2 (par e) = c * c).
  { unfold c, ou_decay, ou_decay2. destruct (h_friction (par e)) as [g|] eqn:E.
    - specialize (Hg g eq_refl). split; [split|].
      + left. apply exp_pos.
      + rewrite <- exp_0. destruct (Req_dec (- g * h_stepsize (par e)) 0) as [->|]; [lra|].
        left. apply exp_increasing. lra.
      + rewrite <- exp_plus. f_equal. lra.
    - lra. }
  destruct Hc as [Hc H2]. split; [exact Hc|]. split.
  - unfold b. rewrite H2, sqrt_sqrt; nra.
  - destruct (ud_update_cases d normal pp lp T L uniform s e) as (H & _). fold new in H.
    assert (E : core (fst (ud_always normal s (MExtra (S (iter e)) (rkey e) (par e)))) = cur).
    { unfold ud_always, cur. cbn. f_equal. apply functional_extensionality. intros i.
      unfold p1, vadd, vscale, vopp, c, b, xi. lra. }
    destruct H as [H|H]; [left; rewrite H; exact E|right].
    eexists. split; [|rewrite H; unfold ud_proposal; cbn [fst core]; rewrite E; reflexivity].
    unfold split_keys. rewrite map_length, seq_length. reflexivity.
Qed.
Print Assumptions C15_momenta.

Example C15_example : ou_decay (HPar (1/2) None) = 0
  /\ h_mom (core (fst (ud_startup harmonic flat 1 (fun _ => 3) (fun _ => 0) (KRoot 0) (HPar (1/2) None)))) 0%nat = 0.
Proof. split; reflexivity. Qed.

(** C16: the quasi-Newton proposal (integration preconditioned by the BFGS
    factors of the current memory) is an involution leaving the memory alone,
    balanced by the acceptance probability whenever the overflow guard does not
    fire, and rejected when it does.  The density of the momenta is the Gaussian
    whose precision is the map from momenta to velocities of the integrator. *)
Theorem C16_qn_proposal :
  forall d prior_pg lik_pg T L pqs diag (s : mstate qstate) (e e' e'' : mextra qpar),
  deterministic prior_pg -> deterministic lik_pg ->
  coherent prior_pg lik_pg T (q_core (core s)) -> par e' = par e ->
  let s' := fst (qn_proposal d prior_pg lik_pg T L pqs diag s e) in
  core (fst (qn_proposal d prior_pg lik_pg T L pqs diag s' e')) = core s
  /\ q_mem (core s') = q_mem (core s)
  /\ ((finite (h_pot (q_core (core s))) \/ h_pot (q_core (core s)) = PInf) ->
      (finite (h_pot (q_core (core s'))) \/ h_pot (q_core (core s')) = PInf) ->
      (forall i, (i < d)%nat -> Rabs (h_value (q_core (core s)) i) <= q_max_val (par e)
         /\ Rabs (h_mom (q_core (core s)) i) <= q_max_val (par e)
         /\ Rabs (h_value (q_core (core s')) i) <= q_max_val (par e)
         /\ Rabs (h_mom (q_core (core s')) i) <= q_max_val (par e)) ->
      let weight x := density (h_pot (q_core (core x)))
                      * exp (- (inner d (h_mom (q_core (core x)))
                                 (qn_minv d pqs diag (q_mem (core s)) (h_mom (q_core (core x)))) / 2)) in
      weight s * xval (clean_alpha (qn_acceptance d pqs diag s e s' e''))
      = weight s' * xval (clean_alpha (qn_acceptance d pqs diag s' e' s e'')))
  /\ ((exists i, (i < d)%nat /\ q_max_val (par e) < Rabs (h_value (q_core (core s')) i)) ->
      qn_acceptance d pqs diag s e s' e'' = Fin 0).
Proof.
  intros d pp lp T L pqs diag s e e' e'' Hp Hl Hc He s'.
  assert (A : forall f n, (forall i, (i < n)%nat -> f i = false) -> any_upto n f = false).
  { intros f n. induction n; intros H; cbn; auto. rewrite IHn, H; auto. }
  assert (B : forall f n i, (i < n)%nat -> f i = true -> any_upto n f = true).
  { intros f n. induction n; intros i Hi H; [lia|]. cbn. destruct (Nat.eq_dec i n).
    - subst. rewrite H. apply orb_true_r.
    - rewrite (IHn i) by (auto; lia). reflexivity. }
  split; [|split; [reflexivity|split]].
  - unfold s', qn_proposal. cbn [fst core q_core q_mem]. rewrite He, !leapfrog_last_walk.
    rewrite walk_reverse; auto.
    + destruct (core s); reflexivity.
    + intros; apply qn_minv_odd.
    + unfold split_keys. rewrite !map_length, !seq_length. reflexivity.
  - intros H1 H2 Hb weight. unfold weight, qn_acceptance. rewrite He, <- !qn_kinetic_inner.
    rewrite !A by (intros i Hi; apply Rltb_false; apply Hb; exact Hi). cbn [orb].
    change (q_mem (core s')) with (q_mem (core s)).
    exact (ud_balance_x _ _ _ _ H1 H2).
  - intros (i & Hi & Hv). unfold qn_acceptance.
    rewrite (B _ d i Hi) by (apply Rltb_true; exact Hv). reflexivity.
Qed.
Print Assumptions C16_qn_proposal.

(** After [n] updates the memory holds the last [m] of: the initial rows, then
    the rows of the positions at the start of each update, in order; whatever
    was accepted. *)
Theorem C16_memory_window :
  forall d normal prior_pg lik_pg T L pqs uts diag uniform (init : mstate qstate * mextra qpar) (m n : nat),
  (1 <= m)%nat -> length (q_mem (core (fst init))) = m ->
  let upd := qn_update d normal prior_pg lik_pg T L pqs uts diag uniform in
  let row i := row_of (q_core (core (fst (iterate upd i init)))) in
  q_mem (core (fst (iterate upd n init))) = lastn m (q_mem (core (fst init)) ++ map row (seq 0 n))
  /\ length (q_mem (core (fst (iterate upd n init)))) = m.
Proof.
  intros d normal pp lp T L pqs uts diag uniform init m n Hm Hl upd row.
  assert (E := qn_memory_window d normal pp lp T L pqs uts diag uniform m init n Hm Hl).
  split; [exact E|]. unfold upd. rewrite E. unfold lastn.
  rewrite skipn_length, app_length, map_length, seq_length. lia.
Qed.
Print Assumptions C16_memory_window.

(** States of a quasi-Newton chain are coherent too. *)
Theorem C16_chain_coherent :
  forall d normal prior_pg lik_pg T L pqs uts diag uniform (init : mstate qstate * mextra qpar) (n : nat),
  coherent prior_pg lik_pg T (q_core (core (fst init))) ->
  coherent prior_pg lik_pg T
    (q_core (core (fst (iterate (qn_update d normal prior_pg lik_pg T L pqs uts diag uniform) n init)))).
Proof.
  intros d normal pp lp T L pqs uts diag uniform init n H. induction n; [exact H|].
  cbn [iterate]. apply qn_coherent_step. exact IHn.
Qed.
Print Assumptions C16_chain_coherent.

Example C16_example : forall r : nat -> nat, lastn 2 ([r 0%nat; r 1%nat] ++ map r [2; 3; 4]%nat) = [r 3%nat; r 4%nat].
Proof. reflexivity. Qed.
