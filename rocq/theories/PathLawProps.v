(** C117: the whole paths kept by a particle filter propagated with
    [resample_full] are properly weighted for the joint law of the states. *)
From Coq Require Import Reals List Bool Arith Lia Lra.
From Verif Require Import XR Keys HmcModel WeightsModel WeightsSpec SmcSpec UnbSpec UnbProofs FilterModel PfSpec PfProofs PfProps
  KexpSpec KexpProofs BackModel BackLawSpec BackLawProofs BackLawProps SmcLawProps RejLawProofs PfLawSpec PfLawProofs PfLawProps
  PathLawSpec PathLawProofs.
Import ListNotations.
Open Scope R_scope.

(** density of a path and of the observations, from the potentials of a model *)
Definition path_density {X Tm} (ip : X -> Tm -> R) (tp : X -> Tm -> X -> Tm -> R) (lp : X -> obs -> Tm -> R) (y0 : obs) (t0 : Tm)
  (yts : list (obs * Tm)) (path : list X) : R :=
  joint_density (fun x t x' t' => exp (- tp x t x' t')) (fun x y t => exp (- lp x y t)) (fun x => exp (- ip x t0)) y0 t0 yts path.

(** Any proposal with a normalised potential (base class), any number of
    particles, threshold, data, unrelated keys and function [phi] of the path:
    the expected value of evidence times the weighted average of [phi] over the
    paths is the sum of [phi] over all paths against their joint density. *)
Theorem C117_general :
  forall (X Tm W : Type) (P : law W) (dx : X) (supp : list X) (ip : X -> Tm -> R) tp lp (pp : X -> Tm -> X -> obs -> Tm -> R)
         (isamp : Tm -> W -> X) (tsamp : X -> Tm -> Tm -> W -> X) (psamp : X -> Tm -> obs -> Tm -> W -> X)
         (cat : W -> list xr -> nat -> list nat) (thr : R) (n : nat) (y0 : obs) (t0 : Tm) (yts : list (obs * Tm))
         (k0 : key) (ks : list key) (phi : list X -> R),
  (forall a b : X, {a = b} + {a <> b}) -> NoDup supp ->
  prob P -> (0 < n)%nat -> length ks = length yts ->
  (* no key is used, or derived from one used, twice *)
  ForallOrdPairs incomp (k0 :: ks) ->
  (forall f, mean P (fun z => f (isamp t0 z)) = Rsum (map (fun x => exp (- ip x t0) * f x) supp)) ->
  (forall x t y t' f, In x supp -> mean P (fun z => f (psamp x t y t' z)) = Rsum (map (fun x' => exp (- pp x t x' y t') * f x') supp)) ->
  (forall t z, In (isamp t z) supp) -> (forall x t y t' z, In x supp -> In (psamp x t y t' z) supp) ->
  (forall z lw, length lw = n -> length (cat z lw n) = n /\ List.Forall (fun i => (i < n)%nat) (cat z lw n)) ->
  let F := fun w => base_filter (keyed_model ip tp lp isamp tsamp w) (fun x t y t' k => psamp x t y t' (w k)) (fun x t x' y t' => Fin (pp x t x' y t')) in
  (forall w y t r s, visited dx supp (F w) thr n y0 t0 yts ((y, t) :: r) s -> resamples thr n s = true -> multinomial_draws n P cat (m_lw s)) ->
  let first := fun w => initiate_particles (F w) n k0 y0 t0 in
  has_mean P (fun w => of_kept dx thr n phi (first w) (kept dx (fun k => cat (w k)) (F w) thr (first w) (combine yts ks)))
    (Rsum (map (fun path => path_density ip tp lp y0 t0 yts path * phi path) (words supp (S (length yts))))).
Proof.
  intros X Tm W P dx supp ip tp lp pp isamp tsamp psamp cat thr n y0 t0 yts k0 ks phi dec Hs HP Hn Lk Hk Hi Hp Hiin Hpin Hcat F Hm first.
  assert (z0 : W) by (destruct P as [|[z p] ?]; [unfold prob in HP; cbn in HP; lra|exact z]).
  apply (paths_law dec dx supp Hs P HP (fun x => exp (- ip x t0)) (fun x t y t' x' => exp (- pp x t x' y t')) thr n
    (fun x y t => - lp x y t) (fun x t x' y t' => - tp x t x' t' - lp x' y t' + pp x t x' y t')
    (fun _ t z => isamp t z) psamp cat (fun x y t => Fin (- lp x y t))
    (fun x t x' y t' => Fin (- tp x t x' t' - lp x' y t' + pp x t x' y t')) (F (fun _ => z0))); try reflexivity; try assumption.
  - intros _ t z. apply Hiin.
  - intros f. rewrite Hi. unfold mean, init_law. rewrite map_map. reflexivity.
  - intros x t y t' f Hx. rewrite Hp by exact Hx. unfold mean, prop_law. rewrite map_map. reflexivity.
  - apply (Hm (fun _ => z0)).
  - intros x t y t' x' _ _. rewrite <- !exp_plus. f_equal. lra.
Qed.
Print Assumptions C117_general.

(** The bootstrap filter. *)
Theorem C117_bootstrap :
  forall (X Tm W : Type) (P : law W) (dx : X) (supp : list X) (ip : X -> Tm -> R) tp lp
         (isamp : Tm -> W -> X) (tsamp : X -> Tm -> Tm -> W -> X)
         (cat : W -> list xr -> nat -> list nat) (thr : R) (n : nat) (y0 : obs) (t0 : Tm) (yts : list (obs * Tm))
         (k0 : key) (ks : list key) (phi : list X -> R),
  (forall a b : X, {a = b} + {a <> b}) -> NoDup supp ->
  prob P -> (0 < n)%nat -> length ks = length yts ->
  ForallOrdPairs incomp (k0 :: ks) ->
  (forall f, mean P (fun z => f (isamp t0 z)) = Rsum (map (fun x => exp (- ip x t0) * f x) supp)) ->
  (forall x t t' f, In x supp -> mean P (fun z => f (tsamp x t t' z)) = Rsum (map (fun x' => exp (- tp x t x' t') * f x') supp)) ->
  (forall t z, In (isamp t z) supp) -> (forall x t t' z, In x supp -> In (tsamp x t t' z) supp) ->
  (forall z lw, length lw = n -> length (cat z lw n) = n /\ List.Forall (fun i => (i < n)%nat) (cat z lw n)) ->
  let F := fun w => bootstrap (keyed_model ip tp lp isamp tsamp w) in
  (forall w y t r s, visited dx supp (F w) thr n y0 t0 yts ((y, t) :: r) s -> resamples thr n s = true -> multinomial_draws n P cat (m_lw s)) ->
  let first := fun w => initiate_particles (F w) n k0 y0 t0 in
  has_mean P (fun w => of_kept dx thr n phi (first w) (kept dx (fun k => cat (w k)) (F w) thr (first w) (combine yts ks)))
    (Rsum (map (fun path => path_density ip tp lp y0 t0 yts path * phi path) (words supp (S (length yts))))).
Proof.
  intros X Tm W P dx supp ip tp lp isamp tsamp cat thr n y0 t0 yts k0 ks phi dec Hs HP Hn Lk Hk Hi Hp Hiin Hpin Hcat F Hm first.
  assert (z0 : W) by (destruct P as [|[z p] ?]; [unfold prob in HP; cbn in HP; lra|exact z]).
  apply (paths_law dec dx supp Hs P HP (fun x => exp (- ip x t0)) (fun x t y t' x' => exp (- tp x t x' t')) thr n
    (fun x y t => - lp x y t) (fun x t x' y t' => - lp x' y t')
    (fun _ t z => isamp t z) (fun x t y t' z => tsamp x t t' z) cat (fun x y t => Fin (- lp x y t))
    (fun x t x' y t' => Fin (- lp x' y t')) (F (fun _ => z0))); try reflexivity; try assumption.
  - intros _ t z. apply Hiin.
  - intros x t y t' z. apply Hpin.
  - intros f. rewrite Hi. unfold mean, init_law. rewrite map_map. reflexivity.
  - intros x t y t' f Hx. rewrite Hp by exact Hx. unfold mean, prop_law. rewrite map_map. reflexivity.
  - apply (Hm (fun _ => z0)).
Qed.
Print Assumptions C117_bootstrap.

(** Two states with fair initial state and transition, likelihoods 1/2 and 1, two
    observations, two particles, resampling whenever the weights differ: the
    paths that start in the state of likelihood 1/2 and end in the other get
    weight 1/8 of a total 9/16. *)
Example C117_example :
  let F := fun w : key -> list nat => bootstrap (keyed_model (fun (_ : bool) (_ : nat) => ln 2) (fun _ _ _ _ => ln 2) coin_lp (fun _ => coin_samp) (fun _ _ _ => coin_samp) (w : key -> list nat)) in
  let first := fun (k : key) (w : key -> list nat) => initiate_particles (F w) 2 (KSplit k 2 1) [0] 0%nat in
  let loop := fun (k : key) (w : key -> list nat) => kept true (fun k => s_cat six_sampler (w k)) (F w) 1 (first k w) [([0], 1%nat, KSplit k 2 0)] in
  forall k, has_mean (joint (repeat six 2)) (fun w => of_kept true 1 2 (fun _ => 1) (first k w) (loop k w)) (9 / 16)
    /\ has_mean (joint (repeat six 2)) (fun w => of_kept true 1 2 (fun path => match path with [true; false] => 1 | _ => 0 end) (first k w) (loop k w)) (1 / 8).
Proof.
  intros F first loop k.
  assert (X : exp (- ln 2) = / 2) by (rewrite exp_Ropp, exp_ln by lra; reflexivity).
  set (P := joint (repeat six 2)).
  assert (H : forall phi, has_mean P (fun w => of_kept true 1 2 phi (first k w) (loop k w))
    (Rsum (map (fun path => path_density (fun (_ : bool) (_ : nat) => ln 2) (fun _ _ _ _ => ln 2) coin_lp [0] 0%nat [([0], 1%nat)] path * phi path) (words [true; false] 2)))).
  { intros phi. apply (C117_bootstrap bool nat (list nat) P true [true; false] (fun _ _ => ln 2) (fun _ _ _ _ => ln 2) coin_lp (fun _ => coin_samp) (fun _ _ _ => coin_samp)
      (s_cat six_sampler) 1 2 [0] 0%nat [([0], 1%nat)] (KSplit k 2 1) [KSplit k 2 0] phi).
    - apply bool_dec.
    - repeat constructor; cbn; intuition discriminate.
    - apply six_prob.
    - lia.
    - reflexivity.
    - constructor; [constructor; [apply incomp_children; lia|constructor]|repeat constructor].
    - intros f. unfold P. rewrite coin_law. cbn. rewrite X. field.
    - intros x t t' f _. unfold P. rewrite coin_law. cbn. rewrite X. field.
    - intros t z. destruct (coin_samp z); cbn; auto.
    - intros x t t' z _. destruct (coin_samp z); cbn; auto.
    - intros z lw Hl. destruct (six_ok (fun _ => z)) as (_ & N & _). destruct (N (KRoot 0) lw 2%nat) as (N1 & N2 & _).
      { intros C. rewrite C in Hl. discriminate. }
      rewrite Hl in N2. split; assumption.
    - intros w y t r s V _ f.
      assert (LR : length ((y, t) :: r) = 1%nat).
      { clear -V. remember ((y, t) :: r) as qq.
        assert (LE : (length qq <= 1)%nat) by (clear -V; remember [([0], 1%nat)] as c; induction V; cbn in *; subst; cbn in *; lia).
        subst qq. cbn in *. lia. }
      assert (LW : exists a b : bool, m_lw s = [Fin (if a then - ln 2 else 0); Fin (if b then - ln 2 else 0)]).
      { eapply coin_start; [|exact V|exact LR]. reflexivity. }
      destruct LW as (a & b & LW).
      unfold P. rewrite mean_joint.
      rewrite (expect_ext _ _ (fun w => f (map (fun x => six_pick x (m_lw s)) w))).
      2:{ intros v Hv. apply Forall2_length_eq in Hv. rewrite repeat_length in Hv. cbn [s_cat six_sampler]. rewrite <- Hv.
          f_equal. apply (seq_nth_map (fun x => six_pick x (m_lw s))). }
      rewrite (expect_push _ (fun x => six_pick x (m_lw s))), map_repeat. apply expect_law. intros g.
      rewrite <- (mean_push six (fun x => six_pick x (m_lw s))). rewrite two_cat by (exists a, b; exact LW). reflexivity. }
  split.
  - specialize (H (fun _ => 1)). unfold path_density, coin_lp in H. cbn in H. rewrite X, Ropp_0, exp_0 in H.
    replace (9 / 16) with (/ 2 * / 2 * (/ 2 * / 2 * 1) * 1 + (/ 2 * / 2 * (/ 2 * 1 * 1) * 1 + (/ 2 * 1 * (/ 2 * / 2 * 1) * 1 + (/ 2 * 1 * (/ 2 * 1 * 1) * 1 + 0)))) by lra.
    exact H.
  - specialize (H (fun path => match path with [true; false] => 1 | _ => 0 end)). unfold path_density, coin_lp in H. cbn in H. rewrite X, Ropp_0, exp_0 in H.
    replace (1 / 8) with (/ 2 * / 2 * (/ 2 * / 2 * 1) * 0 + (/ 2 * / 2 * (/ 2 * 1 * 1) * 1 + (/ 2 * 1 * (/ 2 * / 2 * 1) * 0 + (/ 2 * 1 * (/ 2 * 1 * 1) * 0 + 0)))) by lra.
    exact H.
Qed.
