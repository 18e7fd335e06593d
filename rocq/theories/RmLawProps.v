(** C118: the law of runs of RandomWalk whose stepsize RMMetropolis adapts; they
    keep the target after the adaptation has been cut off, and not before. *)
From Coq Require Import Reals List Arith Bool Lia Lra FunctionalExtensionality.
From Verif Require Import XR Keys LoopModel McmcModel McmcSpec WeightsSpec UnbSpec UnbProofs KexpSpec KexpProofs
  ChainModel ChainSpec ChainProofs ChainProps RmLawModel RmLawSpec RmLawProofs.
Import ListNotations.
Open Scope R_scope.

(** stepsize, point and potential of every recorded state of the run that reads
    the random stream [w] *)
Definition rm_walk {W} (psamp : W -> vec) (nrm : W -> nat -> R) (U : vec -> W -> xr) (unif : W -> R)
  (logu : bool) (scale power target : R) (cut : option nat) (given : option R) (dim : nat) (s0 : start)
  (k : key) (n : nat) (w : key -> W) : list (R * (vec * xr)) :=
  map (fun s => (McmcModel.rw_step (core s), (rw_value (core s), rw_pot (core s))))
    (mcmc_run (rw_rm_update (fun k i => nrm (w k) i) (fun x k => U x (w k)) (fun k => unif (w k)) logu scale power target cut) n
              (rm_begin (fun k => psamp (w k)) (fun x k => U x (w k)) given dim s0 k)).

Theorem C118_run_law :
  forall (W : Type) (P : law W) (unif : W -> R) (psamp : W -> vec) (nrm : W -> nat -> R) (U : vec -> W -> xr)
         (logu : bool) (scale power target : R) (cut : option nat) (given : option R) (dim : nat) (s0 : start) (k : key) (n : nat),
  let next := adapted logu scale power target cut in
  let h := match given with Some h => h | None => 2.38 ^ 2 / INR dim end in
  prob P ->
  (forall x e, U x e <> NInf) ->
  rm_uniform P nrm U next unif h (start_point psamp s0) (n - 1) ->
  has_law P (rm_walk psamp nrm U unif logu scale power target cut given dim s0 k n)
    (fun phi => start_mean P psamp s0 (fun v => mean P (fun e =>
       chain_mean (rm_kernel P nrm U next) (n - 1) (0%nat, (h, (v, U v e))) (fun l => phi (map snd l))))).
Proof.
  intros W P unif psamp nrm U logu scale power target cut given dim s0 k n next h HP HU Hu.
  destruct (rm_run_drawn P HP unif nrm U HU psamp logu scale power target cut given dim s0 k n Hu) as [ks H].
  exact (drawn_has_law P ks _ _ H).
Qed.
Print Assumptions C118_run_law.

(** From the cut-off on, whatever happened before, the run is a run of RandomWalk
    with the stepsize reached (whose kernel keeps the target, C108). *)
Theorem C118_frozen :
  forall (W : Type) (P : law W) (unif : W -> R) (psamp : W -> vec) (nrm : W -> nat -> R) (U : vec -> W -> xr)
         (logu : bool) (scale power target : R) (cut : nat) (given : option R) (dim : nat) (s0 : start) (k : key) (m : nat),
  let next := adapted logu scale power target (Some cut) in
  let h := match given with Some h => h | None => 2.38 ^ 2 / INR dim end in
  prob P ->
  (forall x e, U x e <> NInf) ->
  rm_uniform P nrm U next unif h (start_point psamp s0) (cut + m) ->
  has_law P (rm_walk psamp nrm U unif logu scale power target (Some cut) given dim s0 k (S (cut + m)))
    (fun phi => start_mean P psamp s0 (fun v => mean P (fun e => let s := (0%nat, (h, (v, U v e))) in
       chain_mean (rm_kernel P nrm U next) cut s (frozen_rest P nrm U m phi s))))
  /\ (forall h' S f, symmetric_steps P nrm -> NoDup S -> (forall x e, ~ In x S -> density (U x e) = 0) ->
      walk_target P U density S (fun s => rw_kernel P nrm U h' s f) = walk_target P U density S f).
Proof.
  intros W P unif psamp nrm U logu scale power target cut given dim s0 k m next h HP HU Hu.
  split.
  - destruct (C118_run_law W P unif psamp nrm U logu scale power target (Some cut) given dim s0 k (S (cut + m)) HP HU) as [ks H].
    { rewrite Nat.sub_succ, Nat.sub_0_r. exact Hu. }
    exists ks. intros phi. specialize (H phi). cbv beta in H. rewrite Nat.sub_succ, Nat.sub_0_r in H. fold next h in H.
    match type of H with mean_on _ _ _ ?a => match goal with |- mean_on _ _ _ ?b => replace b with a; [exact H|] end end.
    assert (E : forall v, mean P (fun e => chain_mean (rm_kernel P nrm U next) (cut + m) (0%nat, (h, (v, U v e))) (fun l => phi (map snd l)))
      = mean P (fun e => let s := (0%nat, (h, (v, U v e))) in chain_mean (rm_kernel P nrm U next) cut s (frozen_rest P nrm U m phi s))).
    { intros v. apply mean_fext. intros e. apply frozen_split. cbn. lia. }
    destruct s0; cbn [start_mean]; [apply E|apply mean_fext; intros; apply E|apply E].
  - intros h' S f Hs HN HS.
    apply (kernel_invariant P P HP HP nrm U accept density (fun _ => sqrt h') (fun v e v' e' => balance_sym _ _ (HU v e) (HU v' e')) Hs S HN HS f).
Qed.
Print Assumptions C118_frozen.

(** ** While it adapts, the run does not keep its target
    Two points 0 and 1 on a line with densities 1 and [tau]; two fair coins and a
    biased one. *)
Section Bad.
  Variable tau : R.
  Hypothesis Ht : 0 < tau < 1.
  Definition biased : law bool := [(true, tau); (false, 1 - tau)].
  Definition two : law (bool * bool) := pair_law coin biased.
  Definition two_step (z : bool * bool) (i : nat) : R := coin_step (fst z) i.
  Definition two_unif (z : bool * bool) : R := if snd z then 0 else tau.
  Definition pot2 (x : vec) (_ : bool * bool) : xr :=
    if dec (x = fun _ => 0) then Fin 0 else if dec (x = fun _ => 1) then Fin (- ln tau) else PInf.
  Definition at1 (s : vec * xr) : R := if dec (fst s = fun _ => 1) then 1 else 0.

  Lemma two_prob : prob two.
  Proof. apply pair_prob; [apply coin_prob|]. unfold prob, biased. cbn. ring. Qed.
  Lemma mean_two f : mean two f = (tau * f (true, true) + (1 - tau) * f (true, false) + (tau * f (false, true) + (1 - tau) * f (false, false))) / 2.
  Proof. unfold two. rewrite mean_pair, mean_coin. unfold mean, biased. cbn. field. Qed.
  Lemma pot2_cases x e : pot2 x e = Fin 0 \/ pot2 x e = Fin (- ln tau) \/ pot2 x e = PInf.
  Proof. unfold pot2. destruct (dec _); [auto|]. destruct (dec _); auto. Qed.
  Lemma pot2_0 e : pot2 (fun _ => 0) e = Fin 0.
  Proof. unfold pot2. destruct (dec _); [reflexivity|congruence]. Qed.
  Lemma pot2_1 e : pot2 (fun _ => 1) e = Fin (- ln tau).
  Proof. unfold pot2. destruct (dec _) as [E|_]; [destruct (vec_neq E)|]. destruct (dec _); [reflexivity|congruence]. Qed.
  Lemma pot2_off (x : vec) e : x 0%nat <> 0 -> x 0%nat <> 1 -> pot2 x e = PInf.
  Proof.
    intros A B. unfold pot2. destruct (dec _) as [E|_]; [subst x; lra|]. destruct (dec _) as [E|_]; [subst x; lra|reflexivity].
  Qed.
  Lemma exp_tau : exp (0 - - ln tau) = tau.
  Proof. replace (0 - - ln tau) with (ln tau) by ring. apply exp_ln, Ht. Qed.
  Lemma acc01 : accept (Fin 0) (Fin (- ln tau)) = tau.
  Proof. cbn [accept]. rewrite exp_tau. apply Rmin_right. lra. Qed.
  Lemma acc10 : accept (Fin (- ln tau)) (Fin 0) = 1.
  Proof.
    cbn [accept]. apply Rmin_left. rewrite <- exp_0 at 1. apply Rlt_le, exp_increasing.
    assert (ln tau < 0) by (rewrite <- ln_1; apply ln_increasing; lra). lra.
  Qed.
  Lemma acc_same a : accept (Fin a) (Fin a) = 1.
  Proof. cbn. rewrite Rminus_diag_eq, exp_0 by reflexivity. apply Rmin_left. lra. Qed.
  Lemma two_uniform p p' : (p = Fin 0 \/ p = Fin (- ln tau) \/ p = PInf) -> (p' = Fin 0 \/ p' = Fin (- ln tau) \/ p' = PInf) ->
    uniform_ok two two_unif (accept p p').
  Proof.
    intros A B.
    assert (C : accept p p' = 0 \/ accept p p' = tau \/ accept p p' = 1).
    { destruct A as [-> | [-> | ->]], B as [-> | [-> | ->]]; rewrite ?acc01, ?acc10, ?acc_same; cbn; auto. }
    intros g. rewrite mean_two. unfold two_unif, Rltb. cbn [snd].
    destruct C as [-> | [-> | ->]]; repeat destruct (Rlt_dec _ _); try lra.
  Qed.
  Lemma two_reach_pot next h0 first s : rm_reach two_step pot2 next h0 first s ->
    snd (snd (snd s)) = Fin 0 \/ snd (snd (snd s)) = Fin (- ln tau) \/ snd (snd (snd s)) = PInf.
  Proof. induction 1; cbn [fst snd] in *; try assumption; apply pot2_cases. Qed.
  Lemma two_symmetric : symmetric_steps two two_step.
  Proof.
    intros f. rewrite !mean_two. unfold two_step, coin_step. cbn [fst].
    replace (fun _ : nat => - (1)) with (fun _ : nat => -1) by (apply functional_extensionality; intros; ring).
    replace (fun _ : nat => - -1) with (fun _ : nat => 1) by (apply functional_extensionality; intros; ring). lra.
  Qed.

  Variables (scale power : R) (cut : option nat).
  Hypothesis Hs : 0 < scale.
  Hypothesis Hc : match cut with None => True | Some c => (1 <= c)%nat end.
  Notation nxt := (adapted true scale power tau cut).
  Notation K := (rm_kernel two two_step pot2 nxt).
  Notation e0 := (true, true).

  Lemma next1 a : nxt 1 1 a = exp (scale * (a - tau)).
  Proof.
    unfold adapted. replace (match cut with None => true | Some c => (1 <=? c)%nat end) with true.
    - cbv zeta. change (INR 1) with 1. unfold Rpower. rewrite ln_1, Rmult_0_r, exp_0. f_equal. field.
    - destruct cut as [c|]; [|reflexivity]. symmetry. apply Nat.leb_le, Hc.
  Qed.

  Lemma K_eval i h (x : vec) p f : K (i, (h, (x, p))) f =
    (let u : vec := fun j => x j + sqrt h in let a := accept p (pot2 u e0) in
       a * f (S i, (nxt (S i) h a, (u, pot2 u e0))) + (1 - a) * f (S i, (nxt (S i) h a, (x, p)))
     + (let u : vec := fun j => x j - sqrt h in let a := accept p (pot2 u e0) in
       a * f (S i, (nxt (S i) h a, (u, pot2 u e0))) + (1 - a) * f (S i, (nxt (S i) h a, (x, p))))) / 2.
  Proof.
    unfold rm_kernel. rewrite mean_two. cbv zeta. cbn [fst snd]. rewrite !mean_two.
    unfold proposed, two_step, coin_step. cbn [fst snd].
    replace (fun i => x i + sqrt h * 1) with (fun i => x i + sqrt h) by (apply functional_extensionality; intros; ring).
    replace (fun i => x i + sqrt h * -1) with (fun i => x i - sqrt h) by (apply functional_extensionality; intros; ring).
    set (u := fun i => x i + sqrt h). set (v := fun i => x i - sqrt h).
    change (pot2 u (true, false)) with (pot2 u e0). change (pot2 u (false, true)) with (pot2 u e0). change (pot2 u (false, false)) with (pot2 u e0).
    change (pot2 v (true, false)) with (pot2 v e0). change (pot2 v (false, true)) with (pot2 v e0). change (pot2 v (false, false)) with (pot2 v e0).
    field.
  Qed.

  (** proposals outside of the two points are refused *)
  Lemma stay i h (x : vec) p f : x 0%nat = 0 \/ x 0%nat = 1 -> 0 < sqrt h -> sqrt h <> 1 -> K (i, (h, (x, p))) f = f (S i, (nxt (S i) h 0, (x, p))).
  Proof.
    intros Hx H0 H1. rewrite K_eval. cbv zeta. rewrite !pot2_off; try (cbv beta; destruct (Rdichotomy _ _ H1), Hx as [-> | ->]; intros ?; lra).
    replace (accept p PInf) with 0 by (destruct p; reflexivity). lra.
  Qed.

  Lemma sqrt_exp_pos x : 0 < sqrt (exp x). Proof. apply sqrt_lt_R0, exp_pos. Qed.
  Lemma sqrt_exp_neq x : x <> 0 -> sqrt (exp x) <> 1.
  Proof.
    intros H E. apply H, exp_inv. rewrite exp_0. rewrite <- (sqrt_sqrt (exp x)) by apply Rlt_le, exp_pos. rewrite E. ring.
  Qed.

  Notation pt0 := ((fun _ : nat => 0) : vec, Fin 0).
  Notation pt1 := ((fun _ : nat => 1) : vec, Fin (- ln tau)).
  Notation hit := (fun s : nat * (R * (vec * xr)) => at1 (snd (snd s))).
  Lemma at_pt0 : at1 pt0 = 0.
  Proof. unfold at1. destruct (dec _) as [E|_]; [symmetry in E; destruct (vec_neq E)|reflexivity]. Qed.
  Lemma at_pt1 : at1 pt1 = 1.
  Proof. unfold at1. destruct (dec _) as [_|E]; [reflexivity|destruct E; reflexivity]. Qed.

  (** the four proposals of stepsize 1 *)
  Lemma K_pt0 i f : K (i, (1, pt0)) f =
    (tau * f (S i, (nxt (S i) 1 tau, pt1)) + (1 - tau) * f (S i, (nxt (S i) 1 tau, pt0)) + f (S i, (nxt (S i) 1 0, pt0))) / 2.
  Proof.
    rewrite K_eval. cbv zeta. rewrite sqrt_1.
    replace (fun _ : nat => 0 + 1) with (fun _ : nat => 1) by (apply functional_extensionality; intros; ring).
    replace (fun _ : nat => 0 - 1) with (fun _ : nat => -1) by (apply functional_extensionality; intros; ring).
    rewrite pot2_1, acc01, (pot2_off (fun _ => -1)) by lra. cbn [accept]. field.
  Qed.
  Lemma K_pt1 i f : K (i, (1, pt1)) f = (f (S i, (nxt (S i) 1 0, pt1)) + f (S i, (nxt (S i) 1 1, pt0))) / 2.
  Proof.
    rewrite K_eval. cbv zeta. rewrite sqrt_1.
    replace (fun _ : nat => 1 + 1) with (fun _ : nat => 2) by (apply functional_extensionality; intros; ring).
    replace (fun _ : nat => 1 - 1) with (fun _ : nat => 0) by (apply functional_extensionality; intros; ring).
    rewrite pot2_0, acc10, (pot2_off (fun _ => 2)) by lra. cbn [accept]. field.
  Qed.

  Lemma next_tau : nxt 1 1 tau = 1.
  Proof. rewrite next1, Rminus_diag_eq, Rmult_0_r, exp_0; reflexivity. Qed.
  Lemma leave a s : a = 0 \/ a = 1 -> s = pt0 \/ s = pt1 -> K (1%nat, (nxt 1 1 a, s)) hit = at1 s.
  Proof.
    intros Ha Hp. rewrite next1. destruct s as [x p]. rewrite stay.
    - reflexivity.
    - destruct Hp as [E|E]; injection E as -> ->; auto.
    - apply sqrt_exp_pos.
    - apply sqrt_exp_neq. destruct Ha as [-> | ->]; apply Rmult_integral_contrapositive; split; lra.
  Qed.

  Lemma two_steps_0 : K (0%nat, (1, pt0)) (fun y => K y hit) = tau / 2 - tau * tau / 4.
  Proof.
    rewrite K_pt0, next_tau, leave by auto. rewrite K_pt0, K_pt1. cbn [fst snd]. rewrite at_pt0, at_pt1. field.
  Qed.
  Lemma two_steps_1 : K (0%nat, (1, pt1)) (fun y => K y hit) = / 2.
  Proof. rewrite K_pt1, !leave by auto. rewrite at_pt0, at_pt1. field. Qed.
End Bad.

(** With the stepsize adapted on the log scale, any target rate [tau], scale and
    decay, and adaptation for at least one step: a run started from its target
    leaves it. *)
Theorem C118_keeps_target_refuted :
  forall (tau scale power : R) (cut : option nat) (k : key),
  0 < tau < 1 -> 0 < scale -> match cut with None => True | Some c => (1 <= c)%nat end ->
  exists (W : Type) (P : law W) (unif : W -> R) (psamp : W -> vec) (nrm : W -> nat -> R) (U : vec -> W -> xr)
         (S : list vec) (d : R * (vec * xr)) (phi : vec * xr -> R) (n t : nat) (m : vec -> R),
  prob P /\ (forall x e, U x e <> NInf)
  /\ rm_uniform P nrm U (adapted true scale power tau cut) unif 1 (fun v => In v S) (n - 1)
  /\ symmetric_steps P nrm /\ NoDup S /\ (forall x e, ~ In x S -> density (U x e) = 0) /\ (t < n)%nat
  /\ (forall v, In v S -> has_mean P (fun w => let r := rm_walk psamp nrm U unif true scale power tau cut (Some 1) 1 (Given v) k n w in
                                    density (snd (snd (nth 0 r d))) * phi (snd (nth t r d))) (m v))
  /\ Rsum (map m S) <> walk_target P U density S phi.
Proof.
  intros tau scale power cut k Ht Hs Hc.
  exists (bool * bool)%type, (two tau), (two_unif tau), (fun _ _ => 0), two_step, (pot2 tau), [(fun _ => 0) : vec; fun _ => 1],
    (0, (fun _ => 0, PInf)), at1, 3%nat, 2%nat.
  pose (m := fun v : vec => density (pot2 tau v (true, true)) *
    rm_kernel (two tau) two_step (pot2 tau) (adapted true scale power tau cut) (0%nat, (1, (v, pot2 tau v (true, true))))
      (fun y => rm_kernel (two tau) two_step (pot2 tau) (adapted true scale power tau cut) y (fun s => at1 (snd (snd s))))).
  exists m.
  assert (HU : forall x e, pot2 tau x e <> NInf).
  { intros x e. destruct (pot2_cases tau x e) as [-> | [-> | ->]]; discriminate. }
  assert (Hu : forall first, rm_uniform (two tau) two_step (pot2 tau) (adapted true scale power tau cut) (two_unif tau) 1 first 2).
  { intros first i h s z e Hr _. apply (two_uniform tau Ht); [exact (two_reach_pot tau _ _ _ _ Hr)|apply pot2_cases]. }
  repeat match goal with |- _ /\ _ => split end.
  - apply two_prob.
  - exact HU.
  - apply Hu.
  - apply two_symmetric.
  - constructor; [|constructor; [intros []|constructor]]. intros [E|[]]. exact (vec_neq E).
  - intros x e H. unfold pot2. destruct (dec _) as [->|_]; [destruct H; left; reflexivity|].
    destruct (dec _) as [->|_]; [destruct H; right; left; reflexivity|reflexivity].
  - lia.
  - intros v _. destruct (C118_run_law _ (two tau) (two_unif tau) (fun _ _ => 0) two_step (pot2 tau) true scale power tau cut (Some 1) 1%nat (Given v) k 3
      (two_prob tau) HU (Hu _)) as [ks H].
    exists ks. specialize (H (fun r => density (snd (snd (nth 0 r (0, (fun _ => 0, PInf))))) * at1 (snd (nth 2 r (0, (fun _ => 0, PInf)))))).
    cbv beta in H. cbn [start_mean Nat.sub chain_mean map nth] in H.
    match type of H with mean_on _ _ _ ?a => replace (m v) with a; [exact H|] end.
    rewrite mean_two. cbn [fst snd]. change (pot2 tau v (true, false)) with (pot2 tau v (true, true)).
    change (pot2 tau v (false, true)) with (pot2 tau v (true, true)). change (pot2 tau v (false, false)) with (pot2 tau v (true, true)).
    unfold m. set (p := pot2 tau v (true, true)).
    assert (L : forall c s f, rm_kernel (two tau) two_step (pot2 tau) (adapted true scale power tau cut) s (fun y => c * f y)
      = c * rm_kernel (two tau) two_step (pot2 tau) (adapted true scale power tau cut) s f).
    { intros c s f. unfold rm_kernel. rewrite <- mean_scal. apply mean_fext. intros z. rewrite <- mean_scal. apply mean_fext. intros e. cbv zeta. ring. }
    assert (E : forall s, rm_kernel (two tau) two_step (pot2 tau) (adapted true scale power tau cut) s (fun y =>
        rm_kernel (two tau) two_step (pot2 tau) (adapted true scale power tau cut) y (fun y0 => density p * at1 (snd (snd y0))))
      = density p * rm_kernel (two tau) two_step (pot2 tau) (adapted true scale power tau cut) s (fun y =>
        rm_kernel (two tau) two_step (pot2 tau) (adapted true scale power tau cut) y (fun y0 => at1 (snd (snd y0))))).
    { intros s. rewrite <- L. apply rm_kernel_ext. intros y. apply L. }
    rewrite !E. field.
  - unfold m. cbn [map Rsum fold_right]. unfold walk_target. cbn [map]. rewrite pot2_0, pot2_1.
    rewrite (two_steps_0 tau Ht scale power cut Hs Hc), (two_steps_1 tau Ht scale power cut Hs Hc).
    rewrite !mean_two, !pot2_0, !pot2_1. unfold at1. cbn [fst].
    destruct (dec _) as [E|_]; [symmetry in E; destruct (vec_neq E)|]. destruct (dec _) as [_|E]; [|congruence].
    cbn [density Rsum fold_right]. rewrite Ropp_involutive, exp_ln by lra. rewrite Ropp_0, exp_0.
    intros E. assert (0 < tau * tau) by (apply Rmult_lt_0_compat; lra). lra.
Qed.
Print Assumptions C118_keeps_target_refuted.

(** with the defaults of RandomWalk and RMMetropolis: target 0.234, scale 1, power
    2/3, no cut-off *)
Example C118_defaults :
  0 < 0.234 < 1 /\ 0 < 1 /\ adapted true 1 (2 / 3) 0.234 None 1 1 0.234 = 1 /\ adapted true 1 (2 / 3) 0.234 None 1 1 0 < 1.
Proof.
  split; [lra|]. split; [lra|]. rewrite !(next1 0.234 1 (2/3) None I). split.
  - rewrite Rminus_diag_eq, Rmult_0_r, exp_0; reflexivity.
  - apply Rlt_le_trans with (exp 0); [apply exp_increasing; lra|rewrite exp_0; lra].
Qed.

(** a run that adapts for one step: the hypotheses of the theorem on the cut-off hold *)
Example C118_example :
  rm_uniform (two (/ 2)) two_step (pot2 (/ 2)) (adapted true 1 1 (/ 2) (Some 1%nat)) (two_unif (/ 2)) 1 (start_point (fun _ : bool * bool => fun _ => 0) Zeros) 3
  /\ has_mean (two (/ 2)) (fun w => fst (nth 1 (rm_walk (fun _ _ => 0) two_step (pot2 (/ 2)) (two_unif (/ 2)) true 1 1 (/ 2) (Some 1%nat) (Some 1) 1 Zeros (KRoot 0) 2 w)
                                             (0, (fun _ => 0, PInf)))) ((1 + exp (- / 2)) / 2).
Proof.
  assert (Ht : 0 < / 2 < 1) by lra.
  assert (Hu : forall N, rm_uniform (two (/ 2)) two_step (pot2 (/ 2)) (adapted true 1 1 (/ 2) (Some 1%nat)) (two_unif (/ 2)) 1 (start_point (fun _ : bool * bool => fun _ => 0) Zeros) N).
  { intros N i h s z e Hr _. apply (two_uniform (/ 2) Ht); [exact (two_reach_pot (/ 2) _ _ _ _ Hr)|apply pot2_cases]. }
  split; [apply Hu|].
  destruct (C118_run_law _ (two (/ 2)) (two_unif (/ 2)) (fun _ _ => 0) two_step (pot2 (/ 2)) true 1 1 (/ 2) (Some 1%nat) (Some 1) 1%nat Zeros (KRoot 0) 2
    (two_prob (/ 2))) as [ks H].
  { intros x e. destruct (pot2_cases (/ 2) x e) as [-> | [-> | ->]]; discriminate. }
  { apply Hu. }
  exists ks. specialize (H (fun r => fst (nth 1 r (0, (fun _ => 0, PInf))))). cbv beta in H. cbn [start_mean Nat.sub chain_mean map nth] in H.
  match type of H with mean_on _ _ _ ?a => replace ((1 + exp (- / 2)) / 2) with a; [exact H|] end.
  rewrite mean_two. rewrite !pot2_0. rewrite !(K_pt0 (/ 2) Ht). cbn [fst snd].
  rewrite !(next1 (/ 2) 1 1 (Some 1%nat) (le_n 1)). rewrite Rminus_diag_eq, Rmult_0_r, exp_0 by reflexivity.
  replace (1 * (0 - / 2)) with (- / 2) by ring. field.
Qed.
