(** One leapfrog step with fresh momenta is a Langevin proposal. *)
From Coq Require Import Reals List Arith Bool Lia Lra FunctionalExtensionality.
From Verif Require Import XR Keys LoopModel McmcModel McmcSpec WeightsSpec UnbSpec UnbProofs KexpSpec KexpProofs
  ChainModel ChainSpec ChainProofs RejLawProofs FfbsProofs HmcLawSpec MalaSpec.
Import ListNotations.
Open Scope R_scope.

(** * Chains *)
Section Chains.
  Context {T : Type}.
  Variable M : T -> (T -> R) -> R.
  Hypothesis Mext : forall x f g, (forall y, f y = g y) -> M x f = M x g.
  Hypothesis Mconst : forall x a, M x (fun _ => a) = a.

  Lemma chain_any_ext : forall n x f g, (forall l, f l = g l) -> chain_mean M n x f = chain_mean M n x g.
  Proof.
    induction n as [|n IH]; intros x f g H; cbn [chain_mean]; [apply H|]. apply Mext. intros y. apply IH. intros l. apply H.
  Qed.
  Lemma chain_any_const a : forall n x, chain_mean M n x (fun _ => a) = a.
  Proof.
    induction n as [|n IH]; intros x; cbn [chain_mean]; [reflexivity|].
    transitivity (M x (fun _ => a)); [|apply Mconst]. apply Mext. intros y. apply IH.
  Qed.

  (** a functional that one step keeps is kept by every later step *)
  Variable mu : (T -> R) -> R.
  Hypothesis mu_ext : forall f g, (forall x, f x = g x) -> mu f = mu g.
  Hypothesis mu_inv : forall f, mu (fun x => M x f) = mu f.
  Lemma chain_any_invariant phi e : forall t n, (t <= n)%nat -> mu (fun x => chain_mean M n x (fun r => phi (nth t r e))) = mu phi.
  Proof.
    induction t as [|t IH]; intros n Hn.
    - apply mu_ext. intros x. destruct n as [|n]; [reflexivity|]. cbn [chain_mean nth].
      transitivity (M x (fun _ => phi x)); [|apply Mconst]. apply Mext. intros y. apply chain_any_const.
    - destruct n as [|n]; [lia|]. cbn [chain_mean nth].
      rewrite (mu_inv (fun y => chain_mean M n y (fun l => phi (nth t l e)))). apply IH. lia.
  Qed.
End Chains.

(** a function of the state that is a chain by itself *)
Lemma chain_lump {T S : Type} (K : T -> (T -> R) -> R) (M : S -> (S -> R) -> R) (p : T -> S) :
  (forall x f g, (forall y, f y = g y) -> K x f = K x g) ->
  (forall x f, K x (fun y => f (p y)) = M (p x) f) ->
  forall n x phi, chain_mean K n x (fun r => phi (map p r)) = chain_mean M n (p x) phi.
Proof.
  intros E H. induction n as [|n IH]; intros x phi; cbn [chain_mean]; [reflexivity|].
  rewrite <- (H x (fun y => chain_mean M n y (fun l => phi (p x :: l)))). apply E. intros y.
  exact (IH y (fun l => phi (p x :: l))).
Qed.

Section Mala.
  Variable d : nat.
  Variable pot : vec -> xr.
  Variable grad : vec -> vec.
  Variable h : R.
  Hypothesis Hh : h <> 0.
  Notation tr := (trajectory grad h 1).
  Notation en := (energy d pot).

  Lemma refresh0 z xi : refreshed 0 z xi = (fst z, xi).
  Proof.
    unfold refreshed. f_equal. apply functional_extensionality. intros i.
    replace (1 - 0 * 0) with 1 by ring. rewrite sqrt_1. ring.
  Qed.

  Lemma traj_position q xi : fst (tr (q, xi)) = euler grad h q xi.
  Proof. unfold trajectory, euler. cbn. apply functional_extensionality. intros i. field. Qed.

  Lemma traj_momentum q xi i : snd (tr (q, xi)) i
    = - (xi i - h / 2 * grad q i - h / 2 * grad (euler grad h q xi) i).
  Proof. rewrite <- traj_position. reflexivity. Qed.

  Lemma sum_scale (c : R) (f : nat -> R) l :
    fold_right (fun i s => c * f i + s) 0 l = c * fold_right (fun i s => f i + s) 0 l.
  Proof. induction l as [|i l IH]; cbn; [ring|rewrite IH; ring]. Qed.
  Lemma sum_fext (f g : nat -> R) l : (forall i, f i = g i) ->
    fold_right (fun i s => f i + s) 0 l = fold_right (fun i s => g i + s) 0 l.
  Proof. intros H. induction l as [|i l IH]; cbn; [reflexivity|rewrite IH, H; reflexivity]. Qed.

  Lemma kinetic_forward q xi : fold_right (fun i s => xi i * xi i + s) 0 (seq 0 d) / 2 = euler_potential d grad h q (euler grad h q xi).
  Proof.
    unfold euler_potential.
    rewrite (sum_fext (fun i => (_ - _) * _) (fun i => h * h * (xi i * xi i))) by (intros i; unfold euler; ring).
    rewrite sum_scale. field. exact Hh.
  Qed.
  Lemma kinetic_backward q xi : let m := snd (tr (q, xi)) in
    fold_right (fun i s => m i * m i + s) 0 (seq 0 d) / 2 = euler_potential d grad h (euler grad h q xi) q.
  Proof.
    cbv zeta. unfold euler_potential.
    rewrite (sum_fext (fun i => (q i - _) * _) (fun i => h * h * (snd (tr (q, xi)) i * snd (tr (q, xi)) i))).
    - rewrite sum_scale. field. exact Hh.
    - intros i. rewrite traj_momentum. unfold euler at 1 3. field.
  Qed.

  Lemma energy_mh q xi : accept (en (q, xi)) (en (tr (q, xi))) = mh d pot grad h q (euler grad h q xi).
  Proof.
    unfold mh. rewrite <- kinetic_forward, <- kinetic_backward. unfold energy. rewrite traj_position. reflexivity.
  Qed.

  Lemma hmc_mala {W} (P : law W) nrm z phi :
    hmc_kernel d pot grad h P nrm 1 0 z (fun y => phi (fst y)) = mala_kernel d pot grad h P nrm (fst z) phi.
  Proof.
    unfold hmc_kernel, mala_kernel. apply mean_fext. intros u. cbv zeta. rewrite refresh0, energy_mh, traj_position. reflexivity.
  Qed.

  Lemma reach_position {W} (nrm : W -> nat -> R) (start0 : phase -> Prop) (first : vec -> Prop) :
    (forall z, start0 z -> first (fst z)) ->
    forall t z, hmc_reach grad h nrm 1 0 start0 t z -> mala_reach grad h nrm first t (fst z).
  Proof.
    intros H t z R. induction R as [z S|t z u _ IH|t z u _ IH].
    - apply mala_first, H, S.
    - rewrite refresh0. apply mala_kept, IH.
    - rewrite refresh0, traj_position. apply mala_moved, IH.
  Qed.

  Lemma uniform_position {W} (P : law W) unif nrm (start0 : phase -> Prop) (first : vec -> Prop) n :
    (forall z, start0 z -> first (fst z)) -> mala_uniform d pot grad h P unif nrm first n ->
    hmc_uniform d pot grad h P unif nrm 1 0 start0 n.
  Proof.
    intros H Hu t z u R L. cbv zeta. rewrite refresh0, energy_mh.
    apply (Hu t); [exact (reach_position nrm start0 first H t z R)|exact L].
  Qed.

  (** * Invariance *)
  Context {W : Type}.
  Variable P : law W.
  Hypothesis HP : prob P.
  Variable nrm : W -> nat -> R.
  Hypothesis HU : forall v, pot v <> NInf.
  Variable S : list vec.
  Hypothesis HS : forall x, ~ In x S -> density (pot x) = 0.
  Hypothesis Hq : euler_density d grad h P nrm S.
  Notation M := (mala_kernel d pot grad h P nrm).
  Notation pi := (fun x => density (pot x)).

  Lemma mala_ext x f g : (forall y, f y = g y) -> M x f = M x g.
  Proof. intros H. unfold mala_kernel. cbv zeta. apply mean_fext. intros u. rewrite !H. reflexivity. Qed.
  Lemma mala_const x a : M x (fun _ => a) = a.
  Proof.
    unfold mala_kernel. cbv zeta. transitivity (mean P (fun _ : W => a)); [|apply mean_const, HP].
    apply mean_fext. intros u. ring.
  Qed.

  Lemma mh_outside x y : ~ In y S -> mh d pot grad h x y = 0.
  Proof.
    intros H. apply HS in H. unfold mh. pose proof (HU y) as N. destruct (pot y) as [b| | |]; cbn in *.
    - pose proof (exp_pos (- b)). lra.
    - destruct (pot x); reflexivity.
    - congruence.
    - destruct (pot x); reflexivity.
  Qed.

  Lemma mh_balance x y :
    pi x * exp (- euler_potential d grad h x y) * mh d pot grad h x y
    = pi y * exp (- euler_potential d grad h y x) * mh d pot grad h y x.
  Proof.
    unfold mh. set (f := euler_potential d grad h x y). set (g := euler_potential d grad h y x).
    assert (D : forall p a, p <> NInf -> density p * exp (- a) = density (xadd p (Fin a))).
    { intros p a N. destruct p as [b| | |]; cbn; try ring. rewrite <- exp_plus. f_equal. ring. }
    assert (N : forall p a, p <> NInf -> xadd p (Fin a) <> NInf) by (intros [ | | | ] a H; cbn; congruence).
    rewrite !D by apply HU. apply balance_sym; apply N, HU.
  Qed.

  Lemma Rsum_opp {A} (f : A -> R) l : Rsum (map (fun x => - f x) l) = - Rsum (map f l).
  Proof. transitivity (Rsum (map (fun x => -1 * f x) l)); [apply Rsum_ext; intros; ring|rewrite Rsum_scal; ring]. Qed.

  Lemma mala_invariant phi : Rsum (map (fun x => pi x * M x phi) S) = Rsum (map (fun x => pi x * phi x) S).
  Proof.
    destruct Hq as [C HC].
    assert (A : forall x, In x S -> pi x * M x phi = pi x * phi x
       + C * Rsum (map (fun y => pi x * exp (- euler_potential d grad h x y) * mh d pot grad h x y * (phi y - phi x)) S)).
    { intros x Hx.
      assert (E : M x phi = phi x + mean P (fun u => mh d pot grad h x (euler grad h x (nrm u)) * (phi (euler grad h x (nrm u)) - phi x))).
      { unfold mala_kernel. cbv zeta. transitivity (mean P (fun _ : W => phi x)
          + mean P (fun u => mh d pot grad h x (euler grad h x (nrm u)) * (phi (euler grad h x (nrm u)) - phi x))).
        - rewrite <- mean_plus. apply mean_fext. intros u. ring.
        - rewrite (mean_const P (phi x) HP). reflexivity. }
      rewrite E, (HC x (fun y => mh d pot grad h x y * (phi y - phi x)) Hx).
      - rewrite Rmult_plus_distr_l. f_equal.
        rewrite <- Rmult_assoc, (Rmult_comm (pi x) C), Rmult_assoc. f_equal.
        rewrite <- Rsum_scal. apply Rsum_ext. intros y _. ring.
      - intros y Hy. rewrite (mh_outside x y Hy). ring. }
    rewrite (Rsum_ext _ _ _ A), Rsum_plus.
    match goal with |- _ + ?t = _ => enough (t = 0) as -> by ring end.
    rewrite Rsum_scal.
    match goal with |- C * ?t = 0 => enough (t = - t) by (replace t with 0 by lra; ring) end.
    rewrite Rsum_swap at 1. rewrite <- Rsum_opp. apply Rsum_ext. intros y _. rewrite <- Rsum_opp. apply Rsum_ext. intros x _.
    rewrite (mh_balance x y). ring.
  Qed.
End Mala.
