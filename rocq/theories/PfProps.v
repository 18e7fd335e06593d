(** C102: particle filters are properly weighted.  The evidence computed from the
    recorded weights is an unbiased estimate of the likelihood of the
    observations, and so is evidence times weighted average for the unnormalised
    filtering law. *)
From Coq Require Import Reals List Bool Arith Lia Lra.
From Verif Require Import XR Keys WeightsModel WeightsSpec SmcSpec UnbSpec UnbProofs FilterModel PfSpec PfProofs.
Import ListNotations.
Open Scope R_scope.

Section Real.
  Context {X Tm : Type}.
  Variable (ip : X -> Tm -> R) (tp : X -> Tm -> X -> Tm -> R) (lp : X -> obs -> Tm -> R).
  (** a model with real potentials; its samplers are replaced by the draws *)
  Definition real_model (isample : Tm -> key -> X) (tsample : X -> Tm -> Tm -> key -> X) : smodel X Tm :=
    SModel (fun x t => Fin (ip x t)) isample (fun x t x' t' => Fin (tp x t x' t')) tsample (fun x y t => Fin (lp x y t)).

  (** The unnormalised filtering law of the last time *)
  Definition filtering (supp : list X) (y0 : obs) (t0 : Tm) (yts : list (obs * Tm)) : X -> R :=
    forward supp (fun x t x' t' => exp (- tp x t x' t')) (fun x y t => exp (- lp x y t))
      (fun x => exp (- ip x t0) * exp (- lp x y0 t0)) t0 yts.
End Real.

(** Any proposal with a normalised potential (base class). *)
Theorem C102_general :
  forall (X Tm : Type) (dx : X) (supp : list X) (ip : X -> Tm -> R) tp lp (pp : X -> Tm -> X -> obs -> Tm -> R)
         isample tsample psample (thr : R) (n : nat) (y0 : obs) (t0 : Tm) (yts : list (obs * Tm)) (k0 : key) (ks : list key) (phi : X -> R),
  Rsum (map (fun x => exp (- ip x t0)) supp) = 1 ->
  (forall x t y t', In x supp -> Rsum (map (fun x' => exp (- pp x t x' y t')) supp) = 1) ->
  (0 < n)%nat -> length ks = length yts ->
  let F := base_filter (real_model ip tp lp isample tsample) psample (fun x t x' y t' => Fin (pp x t x' y t')) in
  let mean := filter_mean dx supp (fun x => exp (- ip x t0)) (fun x t y t' x' => exp (- pp x t x' y t')) F thr n y0 t0 yts k0 ks in
  mean (evidence thr n) = Rsum (map (filtering ip tp lp supp y0 t0 yts) supp)
  /\ mean (fun s ms => evidence thr n s ms * average phi (last ms s))
     = Rsum (map (fun x => filtering ip tp lp supp y0 t0 yts x * phi x) supp).
Proof.
  intros X Tm dx supp ip tp lp pp isample tsample psample thr n y0 t0 yts k0 ks phi Hi Hp Hn Lk F mean.
  set (w0 := fun x y t => - lp x y t).
  set (w := fun x t x' y t' => - tp x t x' t' - lp x' y t' + pp x t x' y t').
  assert (H0 : forall x y t, In x supp -> initial_log_weight F x y t = Fin (w0 x y t)) by reflexivity.
  assert (H1 : forall x t x' y t', In x supp -> In x' supp -> intermediate_log_weight F x t x' y t' = Fin (w x t x' y t')) by reflexivity.
  assert (H2 : forall x t y t' x', In x supp -> In x' supp ->
     exp (- pp x t x' y t') * exp (w x t x' y t') = exp (- tp x t x' t') * exp (- lp x' y t')).
  { intros x t y t' x' _ _. rewrite <- !exp_plus. f_equal. unfold w. lra. }
  split.
  - unfold mean. rewrite (filter_mean_forward dx supp (fun x => exp (- ip x t0)) (fun x t y t' x' => exp (- pp x t x' y t')) F thr n
       w0 w H0 H1 Hi Hp Hn _ _ H2 y0 t0 yts k0 ks (fun _ => 1) (evidence thr n) Lk).
    + apply Rsum_ext. intros x _. unfold filtering. lra.
    + intros s ms Fs Fm. rewrite (average_one supp n Hn s ms Fs Fm). lra.
    + reflexivity.
  - unfold mean. rewrite (filter_mean_forward dx supp (fun x => exp (- ip x t0)) (fun x t y t' x' => exp (- pp x t x' y t')) F thr n
       w0 w H0 H1 Hi Hp Hn _ _ H2 y0 t0 yts k0 ks phi _ Lk); reflexivity.
Qed.
Print Assumptions C102_general.

(** The bootstrap filter, which proposes from the transition. *)
Theorem C102_bootstrap :
  forall (X Tm : Type) (dx : X) (supp : list X) (ip : X -> Tm -> R) tp lp
         isample tsample (thr : R) (n : nat) (y0 : obs) (t0 : Tm) (yts : list (obs * Tm)) (k0 : key) (ks : list key) (phi : X -> R),
  Rsum (map (fun x => exp (- ip x t0)) supp) = 1 ->
  (forall x t t', In x supp -> Rsum (map (fun x' => exp (- tp x t x' t')) supp) = 1) ->
  (0 < n)%nat -> length ks = length yts ->
  let F := bootstrap (real_model ip tp lp isample tsample) in
  let mean := filter_mean dx supp (fun x => exp (- ip x t0)) (fun x t y t' x' => exp (- tp x t x' t')) F thr n y0 t0 yts k0 ks in
  mean (evidence thr n) = Rsum (map (filtering ip tp lp supp y0 t0 yts) supp)
  /\ mean (fun s ms => evidence thr n s ms * average phi (last ms s))
     = Rsum (map (fun x => filtering ip tp lp supp y0 t0 yts x * phi x) supp).
Proof.
  intros X Tm dx supp ip tp lp isample tsample thr n y0 t0 yts k0 ks phi Hi Hp Hn Lk F mean.
  set (w0 := fun x y t => - lp x y t).
  set (w := fun (x : X) (t : Tm) x' y t' => - lp x' y t').
  assert (H0 : forall x y t, In x supp -> initial_log_weight F x y t = Fin (w0 x y t)) by reflexivity.
  assert (H1 : forall x t x' y t', In x supp -> In x' supp -> intermediate_log_weight F x t x' y t' = Fin (w x t x' y t')) by reflexivity.
  assert (H2 : forall x t (y : obs) t' x', In x supp -> In x' supp ->
     exp (- tp x t x' t') * exp (w x t x' y t') = exp (- tp x t x' t') * exp (- lp x' y t')) by reflexivity.
  assert (Hp' : forall x t (y : obs) t', In x supp -> Rsum (map (fun x' => exp (- tp x t x' t')) supp) = 1) by (intros; apply Hp; assumption).
  split.
  - unfold mean. rewrite (filter_mean_forward dx supp (fun x => exp (- ip x t0)) (fun x t y t' x' => exp (- tp x t x' t')) F thr n
       w0 w H0 H1 Hi Hp' Hn _ _ H2 y0 t0 yts k0 ks (fun _ => 1) (evidence thr n) Lk).
    + apply Rsum_ext. intros x _. unfold filtering. lra.
    + intros s ms Fs Fm. rewrite (average_one supp n Hn s ms Fs Fm). lra.
    + reflexivity.
  - unfold mean. rewrite (filter_mean_forward dx supp (fun x => exp (- ip x t0)) (fun x t y t' x' => exp (- tp x t x' t')) F thr n
       w0 w H0 H1 Hi Hp' Hn _ _ H2 y0 t0 yts k0 ks phi _ Lk); reflexivity.
Qed.
Print Assumptions C102_bootstrap.

(** A two-state model with fair initial state and transition, likelihood
    potentials 0 and 1, two observations: the expected evidence is
    ((1 + e^-1) / 2)^2 for every number of particles and threshold. *)
Example C102_example :
  let ip := fun (_ : bool) (_ : nat) => ln 2 in
  let tp := fun (_ : bool) (_ : nat) (_ : bool) (_ : nat) => ln 2 in
  let lp := fun (x : bool) (_ : obs) (_ : nat) => if x then 1 else 0 in
  let F := bootstrap (real_model ip tp lp (fun _ _ => true) (fun x _ _ _ => x)) in
  forall thr n, (0 < n)%nat ->
  filter_mean true [true; false] (fun x => exp (- ip x 0%nat)) (fun x t y t' x' => exp (- tp x t x' t')) F thr n
    [0] 0%nat [([0], 1%nat)] (KRoot 0) [KRoot 1] (evidence thr n)
  = ((1 + exp (- 1)) / 2) ^ 2.
Proof.
  intros ip tp lp F thr n Hn.
  assert (E : exp (- ln 2) = / 2) by (rewrite exp_Ropp, exp_ln; lra).
  unfold F. rewrite (proj1 (C102_bootstrap bool nat true [true; false] ip tp lp _ _ thr n [0] 0%nat [([0], 1%nat)] (KRoot 0) [KRoot 1]
    (fun _ => 0) ltac:(cbn; unfold ip; rewrite E; lra) ltac:(intros; cbn; unfold tp; rewrite E; lra) Hn eq_refl)).
  unfold filtering. cbn. unfold ip, tp. cbn. rewrite E, Ropp_0, exp_0. change (-1) with (- (1)). field.
Qed.
