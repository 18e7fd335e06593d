(** C111: a particle filter's run for marginals, computed from one key, gives
    unbiased estimates of the likelihood and of the filtering law. *)
From Coq Require Import Reals List Bool Arith Lia Lra.
From Verif Require Import XR Keys HmcModel WeightsModel WeightsSpec SmcSpec UnbSpec UnbProofs FilterModel PfSpec PfProofs PfProps
  KexpSpec KexpProofs BackModel BackLawSpec BackLawProofs BackLawProps SmcLawProps PfLawSpec PfLawProofs.
Import ListNotations.
Open Scope R_scope.

Section Statement.
  Context {X Tm W : Type}.
  Variables (ip : X -> Tm -> R) (tp : X -> Tm -> X -> Tm -> R) (lp : X -> obs -> Tm -> R).
  (** the model whose initial and transition samplers are functions of the value
      of the stream at the key they are given *)
  Definition keyed_model (isamp : Tm -> W -> X) (tsamp : X -> Tm -> Tm -> W -> X) (w : key -> W) : smodel X Tm :=
    real_model ip tp lp (fun t k => isamp t (w k)) (fun x t t' k => tsamp x t t' (w k)).
End Statement.

(** Any proposal with a normalised potential (base class), for every number of
    particles, threshold, data, key and test function: over the random streams,
    the evidence read off the output of [run_particle_filter_for_marginals] has
    expected value the likelihood of the observations, and times the weighted
    average at the last time the unnormalised filtering expectation. *)
Theorem C111_general :
  forall (X Tm W : Type) (P : law W) (dx : X) (supp : list X) (ip : X -> Tm -> R) tp lp (pp : X -> Tm -> X -> obs -> Tm -> R)
         (isamp : Tm -> W -> X) (tsamp : X -> Tm -> Tm -> W -> X) (psamp : X -> Tm -> obs -> Tm -> W -> X)
         (cat : W -> list xr -> nat -> list nat) (thr : R) (n : nat) (y0 : obs) (t0 : Tm) (ys : list obs) (ts : list Tm) (k : key) (phi : X -> R),
  prob P -> (0 < n)%nat -> length ys = length ts ->
  (* the samplers have the laws of their potentials *)
  (forall f, mean P (fun z => f (isamp t0 z)) = Rsum (map (fun x => exp (- ip x t0) * f x) supp)) ->
  (forall x t y t' f, In x supp -> mean P (fun z => f (psamp x t y t' z)) = Rsum (map (fun x' => exp (- pp x t x' y t') * f x') supp)) ->
  (forall t z, In (isamp t z) supp) -> (forall x t y t' z, In x supp -> In (psamp x t y t' z) supp) ->
  (* random.categorical gives [n] indices, independent with the weights wherever the run resamples *)
  (forall z lw, length lw = n -> length (cat z lw n) = n /\ List.Forall (fun i => (i < n)%nat) (cat z lw n)) ->
  let F := fun w => base_filter (keyed_model ip tp lp isamp tsamp w) (fun x t y t' k => psamp x t y t' (w k)) (fun x t x' y t' => Fin (pp x t x' y t')) in
  (forall w y t r s, visited dx supp (F w) thr n y0 t0 (combine ys ts) ((y, t) :: r) s -> resamples thr n s = true -> multinomial_draws n P cat (m_lw s)) ->
  let run := fun w => run_particle_filter dx (fun k => cat (w k)) (F w) n (y0 :: ys) (t0 :: ts) k thr in
  has_mean P (fun w => of_run (evidence thr n) (run w)) (Rsum (map (filtering ip tp lp supp y0 t0 (combine ys ts)) supp))
  /\ has_mean P (fun w => of_run (fun s ms => evidence thr n s ms * average phi (last ms s)) (run w))
       (Rsum (map (fun x => filtering ip tp lp supp y0 t0 (combine ys ts) x * phi x) supp)).
Proof.
  intros X Tm W P dx supp ip tp lp pp isamp tsamp psamp cat thr n y0 t0 ys ts k phi HP Hn Ll Hi Hp Hiin Hpin Hcat F Hm run.
  assert (z0 : W) by (destruct P as [|[z p] ?]; [unfold prob in HP; cbn in HP; lra|exact z]).
  set (F0 := F (fun _ => z0)).
  set (mu := fun x => exp (- ip x t0)). set (q := fun x t y t' x' => exp (- pp x t x' y t')).
  assert (H0 : Rsum (map mu supp) = 1).
  { rewrite (Rsum_ext mu (fun x => mu x * 1)) by (intros; lra). transitivity (mean P (fun _ => 1)); [symmetry; apply (Hi (fun _ => 1))|apply mean_const, HP]. }
  assert (H1 : forall x t y t', In x supp -> Rsum (map (fun x' => exp (- pp x t x' y t')) supp) = 1).
  { intros x t y t' Hx. rewrite (Rsum_ext _ (fun x' => exp (- pp x t x' y t') * 1)) by (intros; lra).
    transitivity (mean P (fun _ => 1)); [symmetry; apply (Hp x t y t' (fun _ => 1) Hx)|apply mean_const, HP]. }
  assert (D : forall G, has_mean P (fun w => of_run G (run w))
    (filter_mean dx supp mu q F0 thr n y0 t0 (combine ys ts) (KSplit k 2 1) (split_keys (KSplit k 2 0) (length ys) 0 (length ys)) G)).
  { intros G.
    apply (run_mean dx supp P HP mu q thr n (fun x y t => - lp x y t) (fun x t x' y t' => - tp x t x' t' - lp x' y t' + pp x t x' y t')
      (fun _ t z => isamp t z) psamp cat (fun x y t => Fin (- lp x y t))
      (fun x t x' y t' => Fin (- tp x t x' t' - lp x' y t' + pp x t x' y t')) F0); try reflexivity; try assumption.
    - intros _ t z. apply Hiin.
    - intros f. rewrite Hi. unfold mean, init_law. rewrite map_map. reflexivity.
    - intros x t y t' f Hx. rewrite Hp by exact Hx. unfold mean, prop_law. rewrite map_map. reflexivity.
    - apply (Hm (fun _ => z0)). }
  destruct (C102_general X Tm dx supp ip tp lp pp (fun t _ => isamp t z0) (fun x t t' _ => tsamp x t t' z0) (fun x t y t' _ => psamp x t y t' z0)
    thr n y0 t0 (combine ys ts) (KSplit k 2 1) (split_keys (KSplit k 2 0) (length ys) 0 (length ys)) phi H0 H1 Hn
    ltac:(unfold split_keys; rewrite map_length, seq_length, combine_length; lia)) as [E1 E2].
  split.
  - rewrite <- E1. apply D.
  - rewrite <- E2. apply D.
Qed.
Print Assumptions C111_general.

(** The bootstrap filter. *)
Theorem C111_bootstrap :
  forall (X Tm W : Type) (P : law W) (dx : X) (supp : list X) (ip : X -> Tm -> R) tp lp
         (isamp : Tm -> W -> X) (tsamp : X -> Tm -> Tm -> W -> X)
         (cat : W -> list xr -> nat -> list nat) (thr : R) (n : nat) (y0 : obs) (t0 : Tm) (ys : list obs) (ts : list Tm) (k : key) (phi : X -> R),
  prob P -> (0 < n)%nat -> length ys = length ts ->
  (forall f, mean P (fun z => f (isamp t0 z)) = Rsum (map (fun x => exp (- ip x t0) * f x) supp)) ->
  (forall x t t' f, In x supp -> mean P (fun z => f (tsamp x t t' z)) = Rsum (map (fun x' => exp (- tp x t x' t') * f x') supp)) ->
  (forall t z, In (isamp t z) supp) -> (forall x t t' z, In x supp -> In (tsamp x t t' z) supp) ->
  (forall z lw, length lw = n -> length (cat z lw n) = n /\ List.Forall (fun i => (i < n)%nat) (cat z lw n)) ->
  let F := fun w => bootstrap (keyed_model ip tp lp isamp tsamp w) in
  (forall w y t r s, visited dx supp (F w) thr n y0 t0 (combine ys ts) ((y, t) :: r) s -> resamples thr n s = true -> multinomial_draws n P cat (m_lw s)) ->
  let run := fun w => run_particle_filter dx (fun k => cat (w k)) (F w) n (y0 :: ys) (t0 :: ts) k thr in
  has_mean P (fun w => of_run (evidence thr n) (run w)) (Rsum (map (filtering ip tp lp supp y0 t0 (combine ys ts)) supp))
  /\ has_mean P (fun w => of_run (fun s ms => evidence thr n s ms * average phi (last ms s)) (run w))
       (Rsum (map (fun x => filtering ip tp lp supp y0 t0 (combine ys ts) x * phi x) supp)).
Proof.
  intros X Tm W P dx supp ip tp lp isamp tsamp cat thr n y0 t0 ys ts k phi HP Hn Ll Hi Hp Hiin Hpin Hcat F Hm run.
  assert (z0 : W) by (destruct P as [|[z p] ?]; [unfold prob in HP; cbn in HP; lra|exact z]).
  set (F0 := F (fun _ => z0)).
  set (mu := fun x => exp (- ip x t0)). set (q := fun x t (y : obs) t' x' => exp (- tp x t x' t')).
  assert (H0 : Rsum (map mu supp) = 1).
  { rewrite (Rsum_ext mu (fun x => mu x * 1)) by (intros; lra). transitivity (mean P (fun _ => 1)); [symmetry; apply (Hi (fun _ => 1))|apply mean_const, HP]. }
  assert (H1 : forall x t t', In x supp -> Rsum (map (fun x' => exp (- tp x t x' t')) supp) = 1).
  { intros x t t' Hx. rewrite (Rsum_ext _ (fun x' => exp (- tp x t x' t') * 1)) by (intros; lra).
    transitivity (mean P (fun _ => 1)); [symmetry; apply (Hp x t t' (fun _ => 1) Hx)|apply mean_const, HP]. }
  assert (D : forall G, has_mean P (fun w => of_run G (run w))
    (filter_mean dx supp mu q F0 thr n y0 t0 (combine ys ts) (KSplit k 2 1) (split_keys (KSplit k 2 0) (length ys) 0 (length ys)) G)).
  { intros G.
    apply (run_mean dx supp P HP mu q thr n (fun x y t => - lp x y t) (fun x t x' y t' => - lp x' y t')
      (fun _ t z => isamp t z) (fun x t y t' z => tsamp x t t' z) cat (fun x y t => Fin (- lp x y t))
      (fun x t x' y t' => Fin (- lp x' y t')) F0); try reflexivity; try assumption.
    - intros _ t z. apply Hiin.
    - intros x t y t' z. apply Hpin.
    - intros f. rewrite Hi. unfold mean, init_law. rewrite map_map. reflexivity.
    - intros x t y t' f Hx. rewrite Hp by exact Hx. unfold mean, prop_law. rewrite map_map. reflexivity.
    - apply (Hm (fun _ => z0)). }
  destruct (C102_bootstrap X Tm dx supp ip tp lp (fun t _ => isamp t z0) (fun x t t' _ => tsamp x t t' z0)
    thr n y0 t0 (combine ys ts) (KSplit k 2 1) (split_keys (KSplit k 2 0) (length ys) 0 (length ys)) phi H0 H1 Hn
    ltac:(unfold split_keys; rewrite map_length, seq_length, combine_length; lia)) as [E1 E2].
  split.
  - rewrite <- E1. apply D.
  - rewrite <- E2. apply D.
Qed.
Print Assumptions C111_bootstrap.

(** Two states with fair initial state and transition, likelihoods 1/2 and 1, two
    observations, two particles, resampling whenever the weights differ: the
    expected evidence is 9/16; the share of the state of likelihood 1 at the last
    time is 3/8. *)
Definition coin_lp (x : bool) (_ : obs) (_ : nat) : R := if x then ln 2 else 0.
Definition coin_samp (z : list nat) : bool := Nat.even (nth 0 z 0%nat).

Lemma coin_law f : mean (joint (repeat six 2)) (fun z => f (coin_samp z)) = (f true + f false) / 2.
Proof. unfold coin_samp. rewrite (six_first 2 (fun x => f (Nat.even x))) by lia. rewrite mean_six. cbn. field. Qed.

Lemma coin_start F thr y0 t0 yts r s : initial_log_weight F = (fun x y t => Fin (- coin_lp x y t)) ->
  visited true [true; false] F thr 2 y0 t0 yts r s -> length r = length yts ->
  exists a b : bool, m_lw s = [Fin (if a then - ln 2 else 0); Fin (if b then - ln 2 else 0)].
Proof.
  intros HF V.
  assert (LE : (length r <= length yts)%nat) by (clear -V; induction V; cbn in *; lia).
  destruct V as [vs k s Lv Iv Es|y t r s idx ys k V]; intros L.
  - destruct vs as [|a [|b [|? ?]]]; try discriminate. exists a, b.
    unfold initiate_particles, last_marginal in Es. cbn in Es. injection Es as <-. cbn [m_lw]. rewrite HF. unfold coin_lp.
    destruct a, b; rewrite ?Ropp_0; reflexivity.
  - exfalso. assert (LE' : (length ((y, t) :: r) <= length yts)%nat) by (clear -V; remember ((y, t) :: r) as q; clear Heqq; induction V; cbn in *; lia).
    cbn in LE'. lia.
Qed.

Example C111_example :
  let F := fun w : key -> list nat => bootstrap (keyed_model (fun (_ : bool) (_ : nat) => ln 2) (fun _ _ _ _ => ln 2) coin_lp (fun _ => coin_samp) (fun _ _ _ => coin_samp) (w : key -> list nat)) in
  let run := fun (k : key) (w : key -> list nat) => run_particle_filter true (fun k => s_cat six_sampler (w k)) (F w) 2 [[0]; [0]] [0%nat; 1%nat] k 1 in
  forall k, has_mean (joint (repeat six 2)) (fun w => of_run (evidence 1 2) (run k w)) (9 / 16)
    /\ has_mean (joint (repeat six 2)) (fun w => of_run (fun s ms => evidence 1 2 s ms * average (fun x : bool => if x then 0 else 1) (last ms s)) (run k w)) (3 / 8).
Proof.
  intros F run k.
  assert (X : exp (- ln 2) = / 2) by (rewrite exp_Ropp, exp_ln by lra; reflexivity).
  set (P := joint (repeat six 2)).
  destruct (C111_bootstrap bool nat (list nat) P true [true; false] (fun _ _ => ln 2) (fun _ _ _ _ => ln 2) coin_lp (fun _ => coin_samp) (fun _ _ _ => coin_samp)
    (s_cat six_sampler) 1 2 [0] 0%nat [[0]] [1%nat] k (fun x => if x then 0 else 1)) as [E1 E2].
  - apply six_prob.
  - lia.
  - reflexivity.
  - intros f. unfold P. rewrite coin_law. cbn. rewrite X. field.
  - intros x t t' f _. unfold P. rewrite coin_law. cbn. rewrite X. field.
  - intros t z. destruct (coin_samp z); cbn; auto.
  - intros x t t' z _. destruct (coin_samp z); cbn; auto.
  - intros z lw Hl. destruct (six_ok (fun _ => z)) as (_ & N & _). destruct (N (KRoot 0) lw 2%nat) as (N1 & N2 & _).
    { intros C. rewrite C in Hl. discriminate. }
    rewrite Hl in N2. split; assumption.
  - intros w y t r s V _ phi.
    assert (LR : length ((y, t) :: r) = 1%nat).
    { clear -V. remember ((y, t) :: r) as qq.
      assert (LE : (length qq <= 1)%nat) by (clear -V; remember (combine [[0]] [1%nat]) as c; induction V; cbn in *; subst; cbn in *; lia).
      subst qq. cbn in *. lia. }
    assert (LW : exists a b : bool, m_lw s = [Fin (if a then - ln 2 else 0); Fin (if b then - ln 2 else 0)]).
    { eapply coin_start; [|exact V|exact LR]. reflexivity. }
    destruct LW as (a & b & LW).
    unfold P. rewrite mean_joint.
    rewrite (expect_ext _ _ (fun w => phi (map (fun x => six_pick x (m_lw s)) w))).
    2:{ intros v Hv. apply Forall2_length_eq in Hv. rewrite repeat_length in Hv. cbn [s_cat six_sampler]. rewrite <- Hv.
        f_equal. apply (seq_nth_map (fun x => six_pick x (m_lw s))). }
    rewrite (expect_push _ (fun x => six_pick x (m_lw s))), map_repeat. apply expect_law. intros f.
    rewrite <- (mean_push six (fun x => six_pick x (m_lw s))). rewrite two_cat by (exists a, b; exact LW). reflexivity.
  - split.
    + unfold filtering, coin_lp in E1. cbn in E1. rewrite X, Ropp_0, exp_0 in E1.
      match type of E1 with has_mean _ _ ?v => replace (9 / 16) with v by field end. exact E1.
    + unfold filtering, coin_lp in E2. cbn in E2. rewrite X, Ropp_0, exp_0 in E2.
      match type of E2 with has_mean _ _ ?v => replace (3 / 8) with v by field end. exact E2.
Qed.
