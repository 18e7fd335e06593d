(** C122: the squared errors of a particle filter's estimates, over the random
    streams, are at most a constant over the number of particles. *)
From Coq Require Import Reals List Bool Arith Lia Lra.
From Verif Require Import XR Keys HmcModel WeightsModel WeightsSpec WeightsProofs SmcSpec UnbSpec UnbProofs FilterModel PfSpec PfProofs PfProps
  KexpSpec KexpProofs BackModel BackLawSpec BackLawProofs BackLawProps SmcLawProps PfLawSpec PfLawProofs PfLawProps PfVarProofs.
Import ListNotations.
Open Scope R_scope.

Section Positive.
  Context {X Tm : Type}.
  Lemma forward_pos supp trans like : (forall (x : X) (t : Tm) x' t', 0 < trans x t x' t') -> (forall (x : X) (y : obs) (t : Tm), 0 < like x y t) ->
    supp <> [] -> forall yts a t0, (forall x, 0 < a x) -> forall x, 0 < forward supp trans like a t0 yts x.
  Proof.
    intros Ht Hl Ne. induction yts as [|[y t] yts IH]; intros a t0 Ha x; cbn [forward]; [apply Ha|].
    apply IH. intros x'. apply Rmult_lt_0_compat; [|apply Hl]. apply Rsum_pos; [exact Ne|]. intros x0 _. apply Rmult_lt_0_compat; auto.
  Qed.
  Lemma filtering_pos ip tp lp (supp : list X) y0 (t0 : Tm) yts : supp <> [] -> 0 < Rsum (map (filtering ip tp lp supp y0 t0 yts) supp).
  Proof.
    intros Ne. apply Rsum_pos; [exact Ne|]. intros x _. unfold filtering.
    apply forward_pos; [intros; apply exp_pos|intros; apply exp_pos|exact Ne|]. intros x'. apply Rmult_lt_0_compat; apply exp_pos.
  Qed.
End Positive.

(** Any proposal with a normalised potential (base class), weights at most [b],
    test function at most [B] in absolute value, [length ys] steps: no run
    raises, the expected squared error of evidence times average is at most
    (steps + 1) (b^(steps + 1) B)^2 / (min(1, threshold) n), and that of the
    weighted average of the last time against the filtering expectation is at
    most four times that over the squared likelihood. *)
Theorem C122_general :
  forall (X Tm W : Type) (P : law W) (dx : X) (supp : list X) (ip : X -> Tm -> R) tp lp (pp : X -> Tm -> X -> obs -> Tm -> R)
         (isamp : Tm -> W -> X) (tsamp : X -> Tm -> Tm -> W -> X) (psamp : X -> Tm -> obs -> Tm -> W -> X)
         (cat : W -> list xr -> nat -> list nat) (thr : R) (n : nat) (y0 : obs) (t0 : Tm) (ys : list obs) (ts : list Tm) (k : key) (phi : X -> R) (b B : R),
  prob P -> (0 < n)%nat -> 0 < thr -> length ys = length ts ->
  (forall f, mean P (fun z => f (isamp t0 z)) = Rsum (map (fun x => exp (- ip x t0) * f x) supp)) ->
  (forall x t y t' f, In x supp -> mean P (fun z => f (psamp x t y t' z)) = Rsum (map (fun x' => exp (- pp x t x' y t') * f x') supp)) ->
  (forall t z, In (isamp t z) supp) -> (forall x t y t' z, In x supp -> In (psamp x t y t' z) supp) ->
  (forall z lw, length lw = n -> length (cat z lw n) = n /\ List.Forall (fun i => (i < n)%nat) (cat z lw n)) ->
  let F := fun w => base_filter (keyed_model ip tp lp isamp tsamp w) (fun x t y t' k => psamp x t y t' (w k)) (fun x t x' y t' => Fin (pp x t x' y t')) in
  (forall w y t r s, visited dx supp (F w) thr n y0 t0 (combine ys ts) ((y, t) :: r) s -> resamples thr n s = true -> multinomial_draws n P cat (m_lw s)) ->
  (* bounded weights, bounded test function *)
  (forall x y t, In x supp -> exp (- lp x y t) <= b) ->
  (forall x t x' y t', In x supp -> In x' supp -> exp (- tp x t x' t' - lp x' y t' + pp x t x' y t') <= b) ->
  (forall x, In x supp -> Rabs (phi x) <= B) ->
  let run := fun w => run_particle_filter dx (fun k => cat (w k)) (F w) n (y0 :: ys) (t0 :: ts) k thr in
  let z := Rsum (map (filtering ip tp lp supp y0 t0 (combine ys ts)) supp) in
  let zphi := Rsum (map (fun x => filtering ip tp lp supp y0 t0 (combine ys ts) x * phi x) supp) in
  let bound := INR (S (length ys)) * (b ^ S (length ys) * B) ^ 2 / (Rmin 1 thr * INR n) in
  (forall w, exists p s ms, run w = Some p /\ recorded p = s :: ms /\ length ms = length ys)
  /\ (exists v, has_mean P (fun w => of_run (fun s ms => (evidence thr n s ms * average phi (last ms s) - zphi) ^ 2) (run w)) v /\ v <= bound)
  /\ (exists v, has_mean P (fun w => of_run (fun s ms => (average phi (last ms s) - zphi / z) ^ 2) (run w)) v /\ v <= 4 * bound / z ^ 2).
Proof.
  intros X Tm W P dx supp ip tp lp pp isamp tsamp psamp cat thr n y0 t0 ys ts k phi b B HP Hn Hthr Ll Hi Hp Hiin Hpin Hcat F Hm Hb0 Hb HB run z zphi bound.
  assert (z0 : W) by (destruct P as [|[w p] ?]; [unfold prob in HP; cbn in HP; lra|exact w]).
  set (F0 := F (fun _ => z0)).
  set (mu := fun x => exp (- ip x t0)). set (q := fun x t y t' x' => exp (- pp x t x' y t')).
  assert (H0 : Rsum (map mu supp) = 1).
  { rewrite (Rsum_ext mu (fun x => mu x * 1)) by (intros; lra). transitivity (mean P (fun _ => 1)); [symmetry; apply (Hi (fun _ => 1))|apply mean_const, HP]. }
  assert (H1 : forall x t y t', In x supp -> Rsum (map (fun x' => exp (- pp x t x' y t')) supp) = 1).
  { intros x t y t' Hx. rewrite (Rsum_ext _ (fun x' => exp (- pp x t x' y t') * 1)) by (intros; lra).
    transitivity (mean P (fun _ => 1)); [symmetry; apply (Hp x t y t' (fun _ => 1) Hx)|apply mean_const, HP]. }
  set (w0 := fun x y t => - lp x y t). set (w1 := fun x t x' y t' => - tp x t x' t' - lp x' y t' + pp x t x' y t').
  set (k0 := KSplit k 2 1). set (ks := split_keys (KSplit k 2 0) (length ys) 0 (length ys)). set (yts := combine ys ts) in *.
  assert (D : forall G, has_mean P (fun w => of_run G (run w)) (filter_mean dx supp mu q F0 thr n y0 t0 yts k0 ks G)).
  { intros G.
    apply (run_mean dx supp P HP mu q thr n w0 w1 (fun _ t z => isamp t z) psamp cat (fun x y t => Fin (- lp x y t))
      (fun x t x' y t' => Fin (- tp x t x' t' - lp x' y t' + pp x t x' y t')) F0); try reflexivity; try assumption.
    - intros _ t w. apply Hiin.
    - intros f. rewrite Hi. unfold mean, init_law. rewrite map_map. reflexivity.
    - intros x t y t' f Hx. rewrite Hp by exact Hx. unfold mean, prop_law. rewrite map_map. reflexivity.
    - apply (Hm (fun _ => z0)). }
  assert (Lk : length ks = length yts) by (unfold ks, yts, split_keys; rewrite map_length, seq_length, combine_length; lia).
  assert (LT : length yts = length ys) by (unfold yts; rewrite combine_length; lia).
  assert (S0 : forall x, In x supp -> 0 <= mu x) by (intros; apply Rlt_le, exp_pos).
  assert (S1 : forall x t y t' x', In x supp -> In x' supp -> 0 <= q x t y t' x') by (intros; apply Rlt_le, exp_pos).
  assert (Ne : supp <> []) by (intros C; rewrite C in H0; cbn in H0; lra).
  assert (Inx : exists x, In x supp) by (destruct supp as [|x ?]; [contradiction|exists x; left; reflexivity]).
  destruct Inx as [x1 Hx1].
  assert (Bp : 0 <= b) by (pose proof (Hb0 x1 y0 t0 Hx1); pose proof (exp_pos (- lp x1 y0 t0)); lra).
  assert (BB : 0 <= B) by (pose proof (HB x1 Hx1); pose proof (Rabs_pos (phi x1)); lra).
  assert (TG : forall f, Rsum (map (fun x => mu x * (exp (w0 x y0 t0) * Qms supp q w1 t0 yts f x)) supp)
    = Rsum (map (fun x => filtering ip tp lp supp y0 t0 yts x * f x) supp)).
  { intros f. rewrite <- (filter_mean_value dx supp mu q F0 thr n w0 w1 (fun _ _ _ _ => eq_refl) (fun _ _ _ _ _ _ _ => eq_refl) H0 H1 Hn y0 t0 yts k0 ks f
      (fun s ms => evidence thr n s ms * average f (last ms s)) Lk (fun _ _ _ _ => eq_refl)).
    apply (C102_general X Tm dx supp ip tp lp pp (fun t _ => isamp t z0) (fun x t t' _ => tsamp x t t' z0) (fun x t y t' _ => psamp x t y t' z0)
      thr n y0 t0 yts k0 ks f H0 H1 Hn Lk). }
  assert (T1 : Rsum (map (fun x => mu x * (exp (w0 x y0 t0) * Qms supp q w1 t0 yts (fun _ => 1) x)) supp) = z).
  { rewrite TG. apply Rsum_ext. intros; lra. }
  split; [|split].
  - intros w.
    destruct (run_output dx supp thr n w0 w1 (fun _ t z => isamp t z) psamp cat (fun x y t => Fin (- lp x y t))
      (fun x t x' y t' => Fin (- tp x t x' t' - lp x' y t' + pp x t x' y t')) F0 eq_refl eq_refl
      (fun _ _ _ _ => eq_refl) (fun _ _ _ _ _ _ _ => eq_refl) Hn Hcat (fun _ => Hiin) Hpin y0 t0 yts w ys ts k Ll eq_refl) as (s & ms & E & _ & _ & L).
    exists (particles_of s ms), s, ms. split; [exact E|]. split; [apply recorded_of|exact L].
  - eexists. split; [apply D|]. eapply Rle_trans.
    + apply (filter_square dx supp mu q F0 thr n w0 w1 (fun _ _ _ _ => eq_refl) (fun _ _ _ _ _ _ _ => eq_refl) H0 S0 H1 S1 Hn Hthr b Hb0 Hb Bp y0 t0 yts k0 ks phi B); try assumption.
      intros s ms _ _. rewrite TG. apply Rle_refl.
    + right. rewrite LT. unfold bound, theta, Rdiv. ring.
  - eexists. split; [apply D|].
    pose proof (average_square dx supp mu q F0 thr n w0 w1 (fun _ _ _ _ => eq_refl) (fun _ _ _ _ _ _ _ => eq_refl) H0 S0 H1 S1 Hn Hthr b Hb0 Hb Bp y0 t0 yts k0 ks phi B Lk BB HB) as A.
    cbv zeta beta in A. rewrite T1, TG in A. specialize (A (filtering_pos ip tp lp supp y0 t0 yts Ne)).
    eapply Rle_trans; [exact A|]. right. rewrite LT. unfold bound, theta, Rdiv. ring.
Qed.
Print Assumptions C122_general.

(** The bootstrap filter, with likelihoods at most [b]. *)
Theorem C122_bootstrap :
  forall (X Tm W : Type) (P : law W) (dx : X) (supp : list X) (ip : X -> Tm -> R) tp lp
         (isamp : Tm -> W -> X) (tsamp : X -> Tm -> Tm -> W -> X)
         (cat : W -> list xr -> nat -> list nat) (thr : R) (n : nat) (y0 : obs) (t0 : Tm) (ys : list obs) (ts : list Tm) (k : key) (phi : X -> R) (b B : R),
  prob P -> (0 < n)%nat -> 0 < thr -> length ys = length ts ->
  (forall f, mean P (fun z => f (isamp t0 z)) = Rsum (map (fun x => exp (- ip x t0) * f x) supp)) ->
  (forall x t t' f, In x supp -> mean P (fun z => f (tsamp x t t' z)) = Rsum (map (fun x' => exp (- tp x t x' t') * f x') supp)) ->
  (forall t z, In (isamp t z) supp) -> (forall x t t' z, In x supp -> In (tsamp x t t' z) supp) ->
  (forall z lw, length lw = n -> length (cat z lw n) = n /\ List.Forall (fun i => (i < n)%nat) (cat z lw n)) ->
  let F := fun w => bootstrap (keyed_model ip tp lp isamp tsamp w) in
  (forall w y t r s, visited dx supp (F w) thr n y0 t0 (combine ys ts) ((y, t) :: r) s -> resamples thr n s = true -> multinomial_draws n P cat (m_lw s)) ->
  (forall x y t, In x supp -> exp (- lp x y t) <= b) ->
  (forall x, In x supp -> Rabs (phi x) <= B) ->
  let run := fun w => run_particle_filter dx (fun k => cat (w k)) (F w) n (y0 :: ys) (t0 :: ts) k thr in
  let z := Rsum (map (filtering ip tp lp supp y0 t0 (combine ys ts)) supp) in
  let zphi := Rsum (map (fun x => filtering ip tp lp supp y0 t0 (combine ys ts) x * phi x) supp) in
  let bound := INR (S (length ys)) * (b ^ S (length ys) * B) ^ 2 / (Rmin 1 thr * INR n) in
  (forall w, exists p s ms, run w = Some p /\ recorded p = s :: ms /\ length ms = length ys)
  /\ (exists v, has_mean P (fun w => of_run (fun s ms => (evidence thr n s ms * average phi (last ms s) - zphi) ^ 2) (run w)) v /\ v <= bound)
  /\ (exists v, has_mean P (fun w => of_run (fun s ms => (average phi (last ms s) - zphi / z) ^ 2) (run w)) v /\ v <= 4 * bound / z ^ 2).
Proof.
  intros X Tm W P dx supp ip tp lp isamp tsamp cat thr n y0 t0 ys ts k phi b B HP Hn Hthr Ll Hi Hp Hiin Hpin Hcat F Hm Hb0 HB run z zphi bound.
  assert (z0 : W) by (destruct P as [|[w p] ?]; [unfold prob in HP; cbn in HP; lra|exact w]).
  set (F0 := F (fun _ => z0)).
  set (mu := fun x => exp (- ip x t0)). set (q := fun x t (y : obs) t' x' => exp (- tp x t x' t')).
  assert (H0 : Rsum (map mu supp) = 1).
  { rewrite (Rsum_ext mu (fun x => mu x * 1)) by (intros; lra). transitivity (mean P (fun _ => 1)); [symmetry; apply (Hi (fun _ => 1))|apply mean_const, HP]. }
  assert (H1' : forall x t t', In x supp -> Rsum (map (fun x' => exp (- tp x t x' t')) supp) = 1).
  { intros x t t' Hx. rewrite (Rsum_ext _ (fun x' => exp (- tp x t x' t') * 1)) by (intros; lra).
    transitivity (mean P (fun _ => 1)); [symmetry; apply (Hp x t t' (fun _ => 1) Hx)|apply mean_const, HP]. }
  assert (H1 : forall x t (y : obs) t', In x supp -> Rsum (map (q x t y t') supp) = 1) by (intros x t y t' Hx; apply H1', Hx).
  set (w0 := fun x y t => - lp x y t). set (w1 := fun (x : X) (t : Tm) x' y t' => - lp x' y t').
  set (k0 := KSplit k 2 1). set (ks := split_keys (KSplit k 2 0) (length ys) 0 (length ys)). set (yts := combine ys ts) in *.
  assert (D : forall G, has_mean P (fun w => of_run G (run w)) (filter_mean dx supp mu q F0 thr n y0 t0 yts k0 ks G)).
  { intros G.
    apply (run_mean dx supp P HP mu q thr n w0 w1 (fun _ t z => isamp t z) (fun x t y t' z => tsamp x t t' z) cat (fun x y t => Fin (- lp x y t))
      (fun x t x' y t' => Fin (- lp x' y t')) F0); try reflexivity; try assumption.
    - intros _ t w. apply Hiin.
    - intros x t y t' w. apply Hpin.
    - intros f. rewrite Hi. unfold mean, init_law. rewrite map_map. reflexivity.
    - intros x t y t' f Hx. rewrite Hp by exact Hx. unfold mean, prop_law. rewrite map_map. reflexivity.
    - apply (Hm (fun _ => z0)). }
  assert (Lk : length ks = length yts) by (unfold ks, yts, split_keys; rewrite map_length, seq_length, combine_length; lia).
  assert (LT : length yts = length ys) by (unfold yts; rewrite combine_length; lia).
  assert (S0 : forall x, In x supp -> 0 <= mu x) by (intros; apply Rlt_le, exp_pos).
  assert (S1 : forall x t y t' x', In x supp -> In x' supp -> 0 <= q x t y t' x') by (intros; apply Rlt_le, exp_pos).
  assert (Hb : forall x t x' y t', In x supp -> In x' supp -> exp (w1 x t x' y t') <= b) by (intros x t x' y t' _ Hx'; apply Hb0, Hx').
  assert (Ne : supp <> []) by (intros C; rewrite C in H0; cbn in H0; lra).
  assert (Inx : exists x, In x supp) by (destruct supp as [|x ?]; [contradiction|exists x; left; reflexivity]).
  destruct Inx as [x1 Hx1].
  assert (Bp : 0 <= b) by (pose proof (Hb0 x1 y0 t0 Hx1); pose proof (exp_pos (- lp x1 y0 t0)); lra).
  assert (BB : 0 <= B) by (pose proof (HB x1 Hx1); pose proof (Rabs_pos (phi x1)); lra).
  assert (TG : forall f, Rsum (map (fun x => mu x * (exp (w0 x y0 t0) * Qms supp q w1 t0 yts f x)) supp)
    = Rsum (map (fun x => filtering ip tp lp supp y0 t0 yts x * f x) supp)).
  { intros f. rewrite <- (filter_mean_value dx supp mu q F0 thr n w0 w1 (fun _ _ _ _ => eq_refl) (fun _ _ _ _ _ _ _ => eq_refl) H0 H1 Hn y0 t0 yts k0 ks f
      (fun s ms => evidence thr n s ms * average f (last ms s)) Lk (fun _ _ _ _ => eq_refl)).
    apply (C102_bootstrap X Tm dx supp ip tp lp (fun t _ => isamp t z0) (fun x t t' _ => tsamp x t t' z0)
      thr n y0 t0 yts k0 ks f H0 H1' Hn Lk). }
  assert (T1 : Rsum (map (fun x => mu x * (exp (w0 x y0 t0) * Qms supp q w1 t0 yts (fun _ => 1) x)) supp) = z).
  { rewrite TG. apply Rsum_ext. intros; lra. }
  split; [|split].
  - intros w.
    destruct (run_output dx supp thr n w0 w1 (fun _ t z => isamp t z) (fun x t y t' z => tsamp x t t' z) cat (fun x y t => Fin (- lp x y t))
      (fun x t x' y t' => Fin (- lp x' y t')) F0 eq_refl eq_refl
      (fun _ _ _ _ => eq_refl) (fun _ _ _ _ _ _ _ => eq_refl) Hn Hcat (fun _ => Hiin) (fun x t y t' => Hpin x t t') y0 t0 yts w ys ts k Ll eq_refl) as (s & ms & E & _ & _ & L).
    exists (particles_of s ms), s, ms. split; [exact E|]. split; [apply recorded_of|exact L].
  - eexists. split; [apply D|]. eapply Rle_trans.
    + apply (filter_square dx supp mu q F0 thr n w0 w1 (fun _ _ _ _ => eq_refl) (fun _ _ _ _ _ _ _ => eq_refl) H0 S0 H1 S1 Hn Hthr b Hb0 Hb Bp y0 t0 yts k0 ks phi B); try assumption.
      intros s ms _ _. rewrite TG. apply Rle_refl.
    + right. rewrite LT. unfold bound, theta, Rdiv. ring.
  - eexists. split; [apply D|].
    pose proof (average_square dx supp mu q F0 thr n w0 w1 (fun _ _ _ _ => eq_refl) (fun _ _ _ _ _ _ _ => eq_refl) H0 S0 H1 S1 Hn Hthr b Hb0 Hb Bp y0 t0 yts k0 ks phi B Lk BB HB) as A.
    cbv zeta beta in A. rewrite T1, TG in A. specialize (A (filtering_pos ip tp lp supp y0 t0 yts Ne)).
    eapply Rle_trans; [exact A|]. right. rewrite LT. unfold bound, theta, Rdiv. ring.
Qed.
Print Assumptions C122_bootstrap.

(** The two-state model of C111 with its two observations, whose likelihood is
    9/16.  Two particles and resampling whenever the weights differ; and every
    number of particles with threshold 1/4, where no step resamples: the expected
    squared error of the evidence is at most 8/n, and that of the share of the
    state of likelihood 1 (two thirds in the filtering law) at most 8192/(81 n). *)
Lemma coin_bound x y t : exp (- coin_lp x y t) <= 1.
Proof.
  unfold coin_lp. destruct x; [|rewrite Ropp_0, exp_0; lra]. rewrite exp_Ropp, exp_ln by lra. lra.
Qed.

Example C122_example :
  let F := fun w : key -> list nat => bootstrap (keyed_model (fun (_ : bool) (_ : nat) => ln 2) (fun _ _ _ _ => ln 2) coin_lp (fun _ => coin_samp) (fun _ _ _ => coin_samp) (w : key -> list nat)) in
  let run := fun (k : key) (w : key -> list nat) => run_particle_filter true (fun k => s_cat six_sampler (w k)) (F w) 2 [[0]; [0]] [0%nat; 1%nat] k 1 in
  forall k, exists v, has_mean (joint (repeat six 2)) (fun w => of_run (fun s ms => (evidence 1 2 s ms * average (fun x : bool => if x then 0 else 1) (last ms s) - 3 / 8) ^ 2) (run k w)) v
    /\ v <= 1.
Proof.
  intros F run k.
  assert (X : exp (- ln 2) = / 2) by (rewrite exp_Ropp, exp_ln by lra; reflexivity).
  set (P := joint (repeat six 2)).
  destruct (C122_bootstrap bool nat (list nat) P true [true; false] (fun _ _ => ln 2) (fun _ _ _ _ => ln 2) coin_lp (fun _ => coin_samp) (fun _ _ _ => coin_samp)
    (s_cat six_sampler) 1 2 [0] 0%nat [[0]] [1%nat] k (fun x => if x then 0 else 1) 1 1) as (_ & E & _).
  - apply six_prob.
  - lia.
  - lra.
  - reflexivity.
  - intros f. unfold P. rewrite coin_law. cbn. rewrite X. field.
  - intros x t t' f _. unfold P. rewrite coin_law. cbn. rewrite X. field.
  - intros t z. destruct (coin_samp z); cbn; auto.
  - intros x t t' z _. destruct (coin_samp z); cbn; auto.
  - intros z lw Hl. destruct (six_ok (fun _ => z)) as (_ & N & _). destruct (N (KRoot 0) lw 2%nat) as (N1 & N2 & _).
    { intros C. rewrite C in Hl. discriminate. }
    rewrite Hl in N2. split; assumption.
  - intros w y t r s V _ phi.
    assert (LR : length ((y, t) :: r) = 1%nat).
    { clear -V. remember ((y, t) :: r) as qq.
      assert (LE : (length qq <= 1)%nat) by (clear -V; remember (combine [[0]] [1%nat]) as c; induction V; cbn in *; subst; cbn in *; lia).
      subst qq. cbn in *. lia. }
    assert (LW : exists a b : bool, m_lw s = [Fin (if a then - ln 2 else 0); Fin (if b then - ln 2 else 0)]).
    { eapply coin_start; [|exact V|exact LR]. reflexivity. }
    destruct LW as (a & b & LW).
    unfold P. rewrite mean_joint.
    rewrite (expect_ext _ _ (fun w => phi (map (fun x => six_pick x (m_lw s)) w))).
    2:{ intros v Hv. apply Forall2_length_eq in Hv. rewrite repeat_length in Hv. cbn [s_cat six_sampler]. rewrite <- Hv.
        f_equal. apply (seq_nth_map (fun x => six_pick x (m_lw s))). }
    rewrite (expect_push _ (fun x => six_pick x (m_lw s))), map_repeat. apply expect_law. intros f.
    rewrite <- (mean_push six (fun x => six_pick x (m_lw s))). rewrite two_cat by (exists a, b; exact LW). reflexivity.
  - intros x y t _. apply coin_bound.
  - intros x _. destruct x; [rewrite Rabs_R0|rewrite Rabs_R1]; lra.
  - destruct E as (v & Hv & Bv). exists v.
    assert (Z : Rsum (map (fun x => filtering (fun (_ : bool) (_ : nat) => ln 2) (fun _ _ _ _ => ln 2) coin_lp [true; false] [0] 0%nat (combine [[0]] [1%nat]) x * (if x then 0 else 1)) [true; false]) = 3 / 8).
    { unfold filtering, coin_lp. cbn. rewrite X, Ropp_0, exp_0. field. }
    rewrite Z in Hv. split; [exact Hv|]. eapply Rle_trans; [exact Bv|]. right. rewrite Rmin_left by lra. cbn. field.
Qed.

Lemma coin_any F n y0 t0 yts s : (0 < n)%nat -> initial_log_weight F = (fun x y t => Fin (- coin_lp x y t)) ->
  visited true [true; false] F (/ 4) n y0 t0 yts yts s -> resamples (/ 4) n s = false.
Proof.
  intros Hn HF V.
  assert (X : exp (- ln 2) = / 2) by (rewrite exp_Ropp, exp_ln by lra; reflexivity).
  assert (E : forall r, visited true [true; false] F (/ 4) n y0 t0 yts r s -> (length r <= length yts)%nat) by (clear; intros r V; induction V; cbn in *; lia).
  remember yts as r eqn:Er in V at 2. destruct V as [vs k s Lv Iv Es|y t r s idx ys k V].
  - unfold initiate_particles, last_marginal in Es. cbn [value FilterModel.log_weight times observed ess at_last rev app] in Es. injection Es as <-.
    unfold resamples. cbn [m_ess]. rewrite HF.
    set (xs := map _ (split_keys _ _ _ _)).
    assert (Lx : length xs = n) by (unfold xs, split_keys; rewrite !map_length, seq_length; reflexivity).
    assert (O : lw_ok (map (fun x : bool => Fin (- coin_lp x y0 t0)) xs)).
    { split.
      - apply Forall_forall. intros v Hv. apply in_map_iff in Hv. destruct Hv as (x & <- & _). right. eexists. reflexivity.
      - destruct xs; [cbn in Lx; lia|]. apply Exists_cons_hd. eexists. reflexivity. }
    rewrite (ess_kish _ O). cbn [xltb]. apply Rltb_false. unfold kish.
    assert (Q : INR n / 2 <= Rsum (weights (map (fun x : bool => Fin (- coin_lp x y0 t0)) xs))
      /\ 0 < Rsum (map (fun x => x ^ 2) (weights (map (fun x : bool => Fin (- coin_lp x y0 t0)) xs))) <= INR n).
    { rewrite <- Lx. assert (Nx : xs <> []) by (intros C; rewrite C in Lx; cbn in Lx; lia).
      assert (G : forall l : list bool, INR (length l) / 2 <= Rsum (weights (map (fun x : bool => Fin (- coin_lp x y0 t0)) l))
        /\ INR (length l) / 4 <= Rsum (map (fun x => x ^ 2) (weights (map (fun x : bool => Fin (- coin_lp x y0 t0)) l))) <= INR (length l)).
      { clear -X. induction l as [|x l IH]; [cbn; lra|]. unfold weights in *. cbn [length map Rsum weight]. rewrite S_INR.
        assert (C : exp (- coin_lp x y0 t0) = / 2 \/ exp (- coin_lp x y0 t0) = 1) by (unfold coin_lp; destruct x; [left; exact X|right; rewrite Ropp_0; apply exp_0]).
        destruct C as [-> | ->]; lra. }
      destruct (G xs) as (G1 & G2 & G3). split; [exact G1|]. split; [|exact G3].
      assert (0 < INR (length xs)) by (apply lt_0_INR; rewrite Lx; exact Hn). lra. }
    destruct Q as (Q1 & Q2 & Q3). assert (0 < INR n) by (apply lt_0_INR; exact Hn).
    set (u := Rsum (weights _)) in *. set (v := Rsum (map _ (weights _))) in *.
    apply Rmult_le_reg_r with v; [exact Q2|]. unfold Rdiv. rewrite Rmult_assoc, (Rmult_assoc (u ^ 2)), Rinv_l by lra. nra.
  - exfalso. assert (LE' : (length ((y, t) :: r) <= length yts)%nat).
    { clear -V. remember ((y, t) :: r) as q. clear Heqq. induction V; cbn in *; lia. }
    subst r. cbn in LE'. lia.
Qed.

Example C122_example_all :
  let F := fun w : key -> list nat => bootstrap (keyed_model (fun (_ : bool) (_ : nat) => ln 2) (fun _ _ _ _ => ln 2) coin_lp (fun _ => coin_samp) (fun _ _ _ => coin_samp) (w : key -> list nat)) in
  forall n k, (0 < n)%nat ->
  let run := fun (w : key -> list nat) => run_particle_filter true (fun _ lw m => repeat 0%nat m) (F w) n [[0]; [0]] [0%nat; 1%nat] k (/ 4) in
  (exists v, has_mean (joint (repeat six 2)) (fun w => of_run (fun s ms => (evidence (/ 4) n s ms * average (fun _ : bool => 1) (last ms s) - 9 / 16) ^ 2) (run w)) v
    /\ v <= 8 / INR n)
  /\ (exists v, has_mean (joint (repeat six 2)) (fun w => of_run (fun s ms => (average (fun x : bool => if x then 0 else 1) (last ms s) - 2 / 3) ^ 2) (run w)) v
    /\ v <= 8192 / (81 * INR n)).
Proof.
  intros F n k Hn run.
  assert (X : exp (- ln 2) = / 2) by (rewrite exp_Ropp, exp_ln by lra; reflexivity).
  assert (Np : 0 < INR n) by (apply lt_0_INR, Hn).
  set (P := joint (repeat six 2)).
  assert (A1 : forall f, mean P (fun z => f (coin_samp z)) = Rsum (map (fun x => exp (- ln 2) * f x) [true; false])).
  { intros f. unfold P. rewrite coin_law. cbn. rewrite X. field. }
  assert (A2 : forall z, In (coin_samp z) [true; false]) by (intros z; destruct (coin_samp z); cbn; auto).
  assert (A3 : forall w y t r s, visited true [true; false] (F w) (/ 4) n [0] 0%nat (combine [[0]] [1%nat]) ((y, t) :: r) s -> resamples (/ 4) n s = true ->
    multinomial_draws n P (fun _ lw m => repeat 0%nat m) (m_lw s)).
  { intros w y t r s V R. exfalso.
    assert (LR : (y, t) :: r = combine [[0]] [1%nat]).
    { assert (S : forall q, visited true [true; false] (F w) (/ 4) n [0] 0%nat (combine [[0]] [1%nat]) q s -> exists pre, combine [[0]] [1%nat] = pre ++ q).
      { clear. intros q V. induction V as [|y1 t1 r1 s1 i1 ys1 k1 V [pre IH]]; [exists []; reflexivity|exists (pre ++ [(y1, t1)]); rewrite <- app_assoc; exact IH]. }
      destruct (S _ V) as ([|p pre] & E); [symmetry; exact E|]. apply (f_equal (@length _)) in E. cbn in E. rewrite app_length in E. cbn in E. lia. }
    rewrite LR in V. pose proof (coin_any (F w) n _ _ _ s Hn eq_refl V) as C. rewrite C in R. discriminate. }
  pose proof (fun (phi : bool -> R) (Hphi : forall x, Rabs (phi x) <= 1) =>
    C122_bootstrap bool nat (list nat) P true [true; false] (fun _ _ => ln 2) (fun _ _ _ _ => ln 2) coin_lp (fun _ => coin_samp) (fun _ _ _ => coin_samp)
      (fun _ lw m => repeat 0%nat m) (/ 4) n [0] 0%nat [[0]] [1%nat] k phi 1 1 (six_prob 2) Hn ltac:(lra) eq_refl A1 (fun x t t' f _ => A1 f)
      (fun _ => A2) (fun x t t' z _ => A2 z)
      (fun z lw _ => conj (repeat_length 0%nat n) (proj2 (Forall_forall (fun i => (i < n)%nat) (repeat 0%nat n)) (fun i Hi => eq_ind_r (fun j => (j < n)%nat) Hn (repeat_spec n 0%nat i Hi))))
      A3 (fun x y t _ => coin_bound x y t) (fun x _ => Hphi x)) as T.
  assert (Z : forall phi : bool -> R, Rsum (map (fun x => filtering (fun (_ : bool) (_ : nat) => ln 2) (fun _ _ _ _ => ln 2) coin_lp [true; false] [0] 0%nat (combine [[0]] [1%nat]) x * phi x) [true; false]) = (3 / 16) * phi true + (3 / 8) * phi false).
  { intros phi. unfold filtering, coin_lp. cbn. rewrite X, Ropp_0, exp_0. field. }
  assert (Z1 : Rsum (map (filtering (fun (_ : bool) (_ : nat) => ln 2) (fun _ _ _ _ => ln 2) coin_lp [true; false] [0] 0%nat (combine [[0]] [1%nat])) [true; false]) = 9 / 16).
  { rewrite (Rsum_ext _ (fun x => filtering (fun (_ : bool) (_ : nat) => ln 2) (fun _ _ _ _ => ln 2) coin_lp [true; false] [0] 0%nat (combine [[0]] [1%nat]) x * (fun _ => 1) x)) by (intros; lra).
    rewrite (Z (fun _ => 1)). lra. }
  split.
  - destruct (T (fun _ => 1)) as (_ & (v & Hv & Bv) & _); [intros _; rewrite Rabs_R1; lra|]. rewrite (Z (fun _ => 1)) in Hv.
    replace (3 / 16 * 1 + 3 / 8 * 1) with (9 / 16) in Hv by lra. exists v. split; [exact Hv|]. eapply Rle_trans; [exact Bv|]. right.
    rewrite Rmin_right by lra. cbn [length INR pow]. field. lra.
  - destruct (T (fun x => if x then 0 else 1)) as (_ & _ & (v & Hv & Bv)); [intros [|]; [rewrite Rabs_R0|rewrite Rabs_R1]; lra|].
    rewrite (Z (fun x : bool => if x then 0 else 1)) in Hv. cbv beta iota in Hv. rewrite Z1 in Hv, Bv.
    replace ((3 / 16 * 0 + 3 / 8 * 1) / (9 / 16)) with (2 / 3) in Hv by lra. exists v. split; [exact Hv|]. eapply Rle_trans; [exact Bv|]. right.
    rewrite Rmin_right by lra. cbn [length INR pow]. field. lra.
Qed.
