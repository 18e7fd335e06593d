(** C116: Underdamped with infinite friction and one leapfrog step is the
    Metropolis-adjusted Langevin algorithm (the claim of standard_mcmc.py 71). *)
From Coq Require Import Reals List Arith Bool Lia Lra FunctionalExtensionality.
From Verif Require Import XR Keys LoopModel McmcModel McmcSpec HmcModel WeightsSpec UnbSpec UnbProofs KexpSpec KexpProofs
  ChainModel ChainSpec ChainProofs ChainProps HmcLawModel HmcLawSpec HmcLawProofs HmcLawProps MalaSpec MalaProofs.
Import ListNotations.
Open Scope R_scope.

(** The recorded positions are a Markov chain by themselves. *)
Theorem C116_run_law :
  forall (W : Type) (P : law W) (unif : W -> R) (psamp : W -> vec) (nrm : W -> nat -> R) (prior lik : vec -> xr * vec) (T : R)
         (d : nat) (h : R) (s0 : start) (m : option vec) (k : key) (n : nat),
  let pot := tempered_pot prior lik T in
  let grad := tempered_grad prior lik T in
  prob P ->
  (forall v, pot v <> NInf) ->
  h <> 0 ->
  mala_uniform d pot grad h P unif nrm (start_point psamp s0) (n - 1) ->
  has_law P (fun w => map fst (ud_run d psamp nrm unif prior lik T 1 (HPar h None) s0 m k n w))
    (fun phi => start_mean P psamp s0 (fun v => chain_mean (mala_kernel d pot grad h P nrm) (n - 1) v phi)).
Proof.
  intros W P unif psamp nrm prior lik T d h s0 m k n pot grad HP HU Hh Hu.
  destruct (C115_run_law W P unif psamp nrm prior lik T d 1 (HPar h None) s0 m k n HP HU) as [ks H].
  - cbn [h_stepsize]. change (damping (HPar h None)) with 0.
    apply (uniform_position d pot grad h Hh P unif nrm _ (start_point psamp s0)); [|exact Hu].
    intros z [_ E]. destruct s0; exact E.
  - exists ks. intros phi. specialize (H (fun r => phi (map fst r))). cbn [h_stepsize] in H. change (damping (HPar h None)) with 0 in H.
    assert (E : forall v, chain_mean (hmc_kernel d pot grad h P nrm 1 0) (n - 1) (v, first_mom s0 m) (fun r => phi (map fst r))
                        = chain_mean (mala_kernel d pot grad h P nrm) (n - 1) v phi).
    { intros v. apply (chain_lump _ _ fst) with (x := (v, first_mom s0 m)).
      - intros x f g E. apply (hmc_ext P). exact E.
      - intros x f. apply hmc_mala, Hh. }
    match type of H with mean_on _ _ _ ?v => match goal with |- mean_on _ _ _ ?u => replace u with v; [exact H|] end end.
    destruct s0; cbn [start_mean]; try apply mean_fext; intros; apply E.
Qed.
Print Assumptions C116_run_law.

(** Started from the target, every recorded position has the law of the target. *)
Theorem C116_run_keeps_target :
  forall (W : Type) (P : law W) (unif : W -> R) (psamp : W -> vec) (nrm : W -> nat -> R) (prior lik : vec -> xr * vec) (T : R)
         (d : nat) (h : R) (m : option vec) (k : key) (n t : nat) (S : list vec) (e : vec) (phi : vec -> R),
  let pot := tempered_pot prior lik T in
  let grad := tempered_grad prior lik T in
  prob P ->
  (forall v, pot v <> NInf) ->
  h <> 0 ->
  mala_uniform d pot grad h P unif nrm (fun v => In v S) (n - 1) ->
  (forall x, ~ In x S -> density (pot x) = 0) ->
  euler_density d grad h P nrm S ->
  (t < n)%nat ->
  exists M : vec -> R,
    (forall v, In v S ->
       has_mean P (fun w => phi (nth t (map fst (ud_run d psamp nrm unif prior lik T 1 (HPar h None) (Given v) m k n w)) e)) (M v))
    /\ Rsum (map (fun v => density (pot v) * M v) S) = Rsum (map (fun v => density (pot v) * phi v) S).
Proof.
  intros W P unif psamp nrm prior lik T d h m k n t S e phi pot grad HP HU Hh Hu HS Hq Lt.
  exists (fun v => chain_mean (mala_kernel d pot grad h P nrm) (n - 1) v (fun r => phi (nth t r e))). split.
  - intros v Hv. destruct (C116_run_law W P unif psamp nrm prior lik T d h (Given v) m k n HP HU Hh) as [ks H].
    + intros t' x u R L. apply (Hu t' x u); [|exact L]. clear - R Hv.
      induction R as [x F|t x _ IH|t x u _ IH]; [apply mala_first; cbn in F; subst; exact Hv|apply mala_kept, IH|apply mala_moved, IH].
    + exists ks. apply (H (fun r => phi (nth t r e))).
  - apply (chain_any_invariant (mala_kernel d pot grad h P nrm)) with (mu := fun f => Rsum (map (fun v => density (pot v) * f v) S)); [| | | |lia].
    + intros x f g E. apply mala_ext, E.
    + intros x a. apply mala_const, HP.
    + intros f g E. apply Rsum_ext. intros x _. rewrite E. reflexivity.
    + intros f. apply (mala_invariant d pot grad h P HP nrm HU S HS Hq).
Qed.
Print Assumptions C116_run_keeps_target.

(** Two points on a line; the drift leads from both to the second.  Normal
    numbers on three points, with their masses in the right proportion. *)
Definition third : R := / (1 + 2 * exp (- / 2)).
Definition three_coin : law (Z * bool) :=
  [((0%Z, true), third / 2); ((0%Z, false), third / 2);
   ((1%Z, true), third * exp (- / 2) / 2); ((1%Z, false), third * exp (- / 2) / 2);
   (((-1)%Z, true), third * exp (- / 2) / 2); (((-1)%Z, false), third * exp (- / 2) / 2)].
Definition lattice (w : Z * bool) (i : nat) : R := IZR (fst w).
Definition half (w : Z * bool) : R := coin_unif (snd w).
Definition cst (a : R) : vec := fun _ => a.
Definition two_points (v : vec) : xr * vec :=
  (if dec (v = cst 1) then Fin 0 else if dec (v = cst 0) then Fin (/ 2 - ln 2) else PInf,
   if dec (v = cst 0) then cst (-2) else cst 0).
Notation pot2 := (tempered_pot two_points flat 1).
Notation grad2 := (tempered_grad two_points flat 1).

Lemma cst_neq a b : a <> b -> cst a <> cst b.
Proof. intros H E. apply H, (f_equal (fun f => f 0%nat) E). Qed.
Lemma pot2_1 : pot2 (cst 1) = Fin 0.
Proof. unfold tempered_pot, two_points, flat. cbn. destruct (dec _); [|congruence]. cbn. f_equal. ring. Qed.
Lemma pot2_0 : pot2 (cst 0) = Fin (/ 2 - ln 2).
Proof.
  unfold tempered_pot, two_points, flat. cbn. destruct (dec _) as [E|_]; [destruct (cst_neq 0 1 ltac:(lra) E)|].
  destruct (dec _); [|congruence]. cbn. f_equal. ring.
Qed.
Lemma pot2_out v : v <> cst 0 -> v <> cst 1 -> pot2 v = PInf.
Proof. intros H0 H1. unfold tempered_pot, two_points, flat. cbn. destruct (dec _); [congruence|]. destruct (dec _); [congruence|reflexivity]. Qed.
Lemma grad2_0 : grad2 (cst 0) = cst (-2).
Proof.
  unfold tempered_grad, two_points, flat. cbn. destruct (dec _); [|congruence]. apply functional_extensionality. intros i. unfold cst. ring.
Qed.
Lemma grad2_other v : v <> cst 0 -> grad2 v = cst 0.
Proof.
  intros H. unfold tempered_grad, two_points, flat. cbn. destruct (dec _); [congruence|]. apply functional_extensionality. intros i. unfold cst. ring.
Qed.
Lemma euler2_0 w : euler grad2 1 (cst 0) (lattice w) = cst (1 + IZR (fst w)).
Proof. unfold euler. rewrite grad2_0. apply functional_extensionality. intros i. unfold cst, lattice. field. Qed.
Lemma euler2_1 w : euler grad2 1 (cst 1) (lattice w) = cst (1 + IZR (fst w)).
Proof. unfold euler. rewrite grad2_other by (apply cst_neq; lra). apply functional_extensionality. intros i. unfold cst, lattice. field. Qed.
Lemma pot_e x a : x = cst 0 \/ x = cst 1 -> euler_potential 1 grad2 1 x (cst a) = (a - 1) * (a - 1) / 2.
Proof.
  intros [-> | ->]; unfold euler_potential; cbn.
  - rewrite grad2_0. unfold cst. field.
  - rewrite grad2_other by (apply cst_neq; lra). unfold cst. field.
Qed.

Lemma mh2 x y : mh 1 pot2 grad2 1 x y = 0 \/ mh 1 pot2 grad2 1 x y = / 2 \/ mh 1 pot2 grad2 1 x y = 1.
Proof.
  unfold mh. destruct (dec (y = cst 0)) as [Ey|Ny]; [|destruct (dec (y = cst 1)) as [Ey|Ny']].
  3:{ rewrite (pot2_out y Ny Ny'). left. destruct (pot2 x); reflexivity. }
  all: destruct (dec (x = cst 0)) as [Ex|Nx]; [|destruct (dec (x = cst 1)) as [Ex|Nx']].
  3, 6: rewrite (pot2_out x Nx Nx'), Ey, ?pot2_0, ?pot2_1; right; right; reflexivity.
  all: subst x y; rewrite ?pot2_0, ?pot2_1, !pot_e by auto; cbn [xadd accept]; right.
  1, 4: right; rewrite Rminus_diag_eq, exp_0 by reflexivity; apply Rmin_left; lra.
  - right. apply Rmin_left. replace (_ - _) with (ln 2) by field. rewrite exp_ln; lra.
  - left. replace (_ - _) with (0 - ln 2) by field. rewrite exp_ln2. apply Rmin_right. lra.
Qed.

Lemma third_sum : third + 2 * (third * exp (- / 2)) = 1.
Proof. unfold third. field. pose proof (exp_pos (- / 2)). lra. Qed.
Lemma mean_three f : mean three_coin f
  = third * (f (0%Z, true) + f (0%Z, false)) / 2
    + third * exp (- / 2) * (f (1%Z, true) + f (1%Z, false) + f ((-1)%Z, true) + f ((-1)%Z, false)) / 2.
Proof. unfold mean, three_coin. cbn. field. Qed.

Lemma half_uniform x y : uniform_ok three_coin half (mh 1 pot2 grad2 1 x y).
Proof.
  intros g. rewrite mean_three. unfold half, coin_unif. cbn [fst snd]. pose proof third_sum as Q.
  set (a := third * exp (- / 2)) in *. assert (third = 1 - 2 * a) as -> by lra.
  destruct (mh2 x y) as [-> | [-> | ->]]; unfold Rltb; destruct (Rlt_dec 0 _), (Rlt_dec (/ 2) _); lra.
Qed.

(** The chain moves from the first point to the second half as often as it
    proposes to, and the hypotheses of both theorems hold. *)
Example C116_example :
  has_mean three_coin (fun w => nth 1 (map fst (ud_run 1 (fun _ => cst 0) lattice half two_points flat 1 1 (HPar 1 None) (Given (cst 0)) None
                                             (KRoot 0) 2 w)) (cst 0) 0%nat) (third / 2)
  /\ (forall v, pot2 v <> NInf)
  /\ mala_uniform 1 pot2 grad2 1 three_coin half lattice (fun v => In v [cst 0; cst 1]) 5
  /\ (forall x, ~ In x [cst 0; cst 1] -> density (pot2 x) = 0)
  /\ euler_density 1 grad2 1 three_coin lattice [cst 0; cst 1].
Proof.
  assert (HP : prob three_coin).
  { unfold prob, three_coin. cbn. pose proof third_sum. lra. }
  assert (HU : forall v, pot2 v <> NInf).
  { intros v. destruct (dec (v = cst 0)) as [->|]; [rewrite pot2_0; discriminate|].
    destruct (dec (v = cst 1)) as [->|]; [rewrite pot2_1; discriminate|]. rewrite pot2_out by assumption. discriminate. }
  split; [|split; [exact HU|split; [|split]]].
  - destruct (C116_run_law (Z * bool) three_coin half (fun _ => cst 0) lattice two_points flat 1 1 1 (Given (cst 0)) None (KRoot 0) 2 HP HU)
      as [ks H]; [lra|intros t x u _ _; apply half_uniform|].
    exists ks. specialize (H (fun r => nth 1 r (cst 0) 0%nat)). cbv beta in H. cbn [start_mean] in H.
    match type of H with mean_on _ _ _ ?v => replace (third / 2) with v; [exact H|] end.
    cbn [Nat.sub chain_mean nth]. unfold mala_kernel. rewrite mean_three. cbv zeta. rewrite !euler2_0. cbn [fst].
    replace (1 + 1) with 2 by ring. replace (1 + 0) with 1 by ring. replace (1 + -1) with 0 by ring.
    assert (mh 1 pot2 grad2 1 (cst 0) (cst 2) = 0) as ->.
    { unfold mh. rewrite (pot2_out (cst 2)) by (apply cst_neq; lra). rewrite pot2_0. reflexivity. }
    assert (mh 1 pot2 grad2 1 (cst 0) (cst 1) = / 2) as ->.
    { unfold mh. rewrite pot2_0, pot2_1, !pot_e by auto. cbn [xadd accept].
      replace (_ - _) with (0 - ln 2) by field. rewrite exp_ln2. apply Rmin_right. lra. }
    unfold cst. field.
  - intros t x u _ _. apply half_uniform.
  - intros x H. rewrite pot2_out; [reflexivity| |]; intros ->; apply H; cbn; auto.
  - exists third. intros x f Hx Hf.
    assert (E2 : f (cst 2) = 0) by (apply Hf; intros [E|[E|[]]]; revert E; apply cst_neq; lra).
    assert (Hx' : x = cst 0 \/ x = cst 1) by (destruct Hx as [<-|[<-|[]]]; auto).
    assert (Eu : forall w, euler grad2 1 x (lattice w) = cst (1 + IZR (fst w))) by (intros w; destruct Hx' as [-> | ->]; [apply euler2_0|apply euler2_1]).
    rewrite mean_three, !Eu. cbn [fst].
    replace (1 + 1) with 2 by ring. replace (1 + 0) with 1 by ring. replace (1 + -1) with 0 by ring. rewrite E2.
    cbn. rewrite !pot_e by exact Hx'. replace (- ((0 - 1) * (0 - 1) / 2)) with (- / 2) by field.
    replace (- ((1 - 1) * (1 - 1) / 2)) with 0 by field. rewrite exp_0. field.
Qed.
