(** C112: forward filtering backward simulation from one key is properly weighted
    for the smoothing law. *)
From Coq Require Import Reals List Bool Arith Lia Lra.
From Verif Require Import XR Keys HmcModel WeightsModel WeightsSpec McmcSpec SmcSpec UnbSpec UnbProofs FilterModel FilterSpec PfSpec PfProofs PfProps
  KexpSpec KexpProofs BackModel BackSpec BackLawSpec BackLawProofs BackLawProps SmcLawProps PfLawSpec PfLawProofs PfLawProps FfbsSpec FfbsProofs.
Import ListNotations.
Open Scope R_scope.

(** [forward_filtering_backward_simulation] with the draws of the stream [w]: the
    evidence of the filter it runs times the average of [psi] over the
    trajectories it returns; 0 for an exception. *)
Definition weighted_trajectories {X Tm W} (dx : X) (dt : Tm) (tp : X -> Tm -> X -> Tm -> R) (sm : sampler W) (F : (key -> W) -> pfilter X Tm)
  (thr : R) (n ns maxrej : nat) (b infl : R) (y : list obs) (t : list Tm) (k : key) (psi : list X -> R) (w : key -> W) : R :=
  match run_particle_filter dx (fun k => s_cat sm (w k)) (F w) n y t (KSplit k 2 0) thr,
        ffbs dx dt (fun x t x' t' => Fin (tp x t x' t')) (fun k => s_cat sm (w k)) (fun k => s_cat1 sm (w k)) (fun k => s_unif sm (w k))
          (fun k => s_unifn sm (w k)) (F w) y t ns k (Some n) thr maxrej b infl with
  | Some p, Some (rows, _) => of_run (evidence thr n) (Some p) * trajectory_average dx ns psi rows
  | _, _ => 0
  end.

(** Any proposal with a normalised potential, for every number of particles and
    trajectories, threshold, data, key and function of whole trajectories; full
    backward resampling ([maxrej = 0]) or rejection with a valid bound. *)
Theorem C112_general :
  forall (X Tm W : Type) (P : law W) (dx : X) (dt : Tm) (supp : list X) (ip : X -> Tm -> R) tp lp (pp : X -> Tm -> X -> obs -> Tm -> R)
         (isamp : Tm -> W -> X) (tsamp : X -> Tm -> Tm -> W -> X) (psamp : X -> Tm -> obs -> Tm -> W -> X)
         (sm : sampler W) (thr : R) (n ns maxrej : nat) (b infl : R) (y0 : obs) (t0 : Tm) (ys : list obs) (ts : list Tm) (k : key) (psi : list X -> R),
  prob P -> (0 < n)%nat -> (0 < ns)%nat -> length ys = length ts -> sampler_ok sm ->
  (* the samplers have the laws of their potentials *)
  (forall f, mean P (fun z => f (isamp t0 z)) = Rsum (map (fun x => exp (- ip x t0) * f x) supp)) ->
  (forall x t y t' f, In x supp -> mean P (fun z => f (psamp x t y t' z)) = Rsum (map (fun x' => exp (- pp x t x' y t') * f x') supp)) ->
  (forall t z, In (isamp t z) supp) -> (forall x t y t' z, In x supp -> In (psamp x t y t' z) supp) ->
  let F := fun w => base_filter (keyed_model ip tp lp isamp tsamp w) (fun x t y t' k => psamp x t y t' (w k)) (fun x t x' y t' => Fin (pp x t x' y t')) in
  (* the categorical and uniform draws have the right laws wherever the run makes them *)
  (forall w y t r s, visited dx supp (F w) thr n y0 t0 (combine ys ts) ((y, t) :: r) s -> resamples thr n s = true -> multinomial_draws n P (s_cat sm) (m_lw s)) ->
  (forall w p, run_particle_filter dx (fun k => s_cat sm (w k)) (F w) n (y0 :: ys) (t0 :: ts) (KSplit k 2 0) thr = Some p ->
     cat_faithful P sm (drawn_from dx dt (fun x t x' t' => Fin (tp x t x' t')) (value p) (log_weight p) (times p) (length ys)) ns
     /\ ((0 < maxrej)%nat -> unif_faithful P sm (ratio dx dt (fun x t x' t' => Fin (tp x t x' t')) (value p) (log_weight p) (times p) (length ys) b) ns)) ->
  (* the bound of the rejection sampler is valid *)
  ((0 < maxrej)%nat -> 0 < b /\ forall x t x' t', In x supp -> In x' supp -> exp (- tp x t x' t') <= b) ->
  has_mean P (weighted_trajectories dx dt tp sm F thr n ns maxrej b infl (y0 :: ys) (t0 :: ts) k psi)
    (smoothing ip tp lp supp y0 t0 (combine ys ts) psi).
Proof.
  intros X Tm W P dx dt supp ip tp lp pp isamp tsamp psamp sm thr n ns maxrej b infl y0 t0 ys ts k psi HP Hn Hns Ll Hsm Hi Hp Hiin Hpin F Hm Hback Hb.
  assert (z0 : W) by (destruct P as [|[z p] ?]; [unfold prob in HP; cbn in HP; lra|exact z]).
  apply (ffbs_mean dx dt supp P HP sm Hsm ip tp lp (fun x t y t' x' => exp (- pp x t x' y t')) thr n ns
    (fun x t x' y t' => - tp x t x' t' - lp x' y t' + pp x t x' y t') (fun _ t z => isamp t z) psamp
    (fun x t x' y t' => Fin (- tp x t x' t' - lp x' y t' + pp x t x' y t')) (F (fun _ => z0))); try reflexivity; try assumption.
  - intros _ t z. apply Hiin.
  - intros f. rewrite Hi. unfold mean, init_law. rewrite map_map. reflexivity.
  - intros x t y t' f Hx. rewrite Hp by exact Hx. unfold mean, prop_law. rewrite map_map. reflexivity.
  - intros x t y t' x' _ _. rewrite <- !exp_plus. f_equal. ring.
  - apply (Hm (fun _ => z0)).
Qed.
Print Assumptions C112_general.

(** The bootstrap filter. *)
Theorem C112_bootstrap :
  forall (X Tm W : Type) (P : law W) (dx : X) (dt : Tm) (supp : list X) (ip : X -> Tm -> R) tp lp
         (isamp : Tm -> W -> X) (tsamp : X -> Tm -> Tm -> W -> X)
         (sm : sampler W) (thr : R) (n ns maxrej : nat) (b infl : R) (y0 : obs) (t0 : Tm) (ys : list obs) (ts : list Tm) (k : key) (psi : list X -> R),
  prob P -> (0 < n)%nat -> (0 < ns)%nat -> length ys = length ts -> sampler_ok sm ->
  (forall f, mean P (fun z => f (isamp t0 z)) = Rsum (map (fun x => exp (- ip x t0) * f x) supp)) ->
  (forall x t t' f, In x supp -> mean P (fun z => f (tsamp x t t' z)) = Rsum (map (fun x' => exp (- tp x t x' t') * f x') supp)) ->
  (forall t z, In (isamp t z) supp) -> (forall x t t' z, In x supp -> In (tsamp x t t' z) supp) ->
  let F := fun w => bootstrap (keyed_model ip tp lp isamp tsamp w) in
  (forall w y t r s, visited dx supp (F w) thr n y0 t0 (combine ys ts) ((y, t) :: r) s -> resamples thr n s = true -> multinomial_draws n P (s_cat sm) (m_lw s)) ->
  (forall w p, run_particle_filter dx (fun k => s_cat sm (w k)) (F w) n (y0 :: ys) (t0 :: ts) (KSplit k 2 0) thr = Some p ->
     cat_faithful P sm (drawn_from dx dt (fun x t x' t' => Fin (tp x t x' t')) (value p) (log_weight p) (times p) (length ys)) ns
     /\ ((0 < maxrej)%nat -> unif_faithful P sm (ratio dx dt (fun x t x' t' => Fin (tp x t x' t')) (value p) (log_weight p) (times p) (length ys) b) ns)) ->
  ((0 < maxrej)%nat -> 0 < b /\ forall x t x' t', In x supp -> In x' supp -> exp (- tp x t x' t') <= b) ->
  has_mean P (weighted_trajectories dx dt tp sm F thr n ns maxrej b infl (y0 :: ys) (t0 :: ts) k psi)
    (smoothing ip tp lp supp y0 t0 (combine ys ts) psi).
Proof.
  intros X Tm W P dx dt supp ip tp lp isamp tsamp sm thr n ns maxrej b infl y0 t0 ys ts k psi HP Hn Hns Ll Hsm Hi Hp Hiin Hpin F Hm Hback Hb.
  assert (z0 : W) by (destruct P as [|[z p] ?]; [unfold prob in HP; cbn in HP; lra|exact z]).
  apply (ffbs_mean dx dt supp P HP sm Hsm ip tp lp (fun x t y t' x' => exp (- tp x t x' t')) thr n ns
    (fun x t x' y t' => - lp x' y t') (fun _ t z => isamp t z) (fun x t y t' z => tsamp x t t' z)
    (fun x t x' y t' => Fin (- lp x' y t')) (F (fun _ => z0))); try reflexivity; try assumption.
  - intros _ t z. apply Hiin.
  - intros x t y t' z. apply Hpin.
  - intros f. rewrite Hi. unfold mean, init_law. rewrite map_map. reflexivity.
  - intros x t y t' f Hx. rewrite Hp by exact Hx. unfold mean, prop_law. rewrite map_map. reflexivity.
  - apply (Hm (fun _ => z0)).
Qed.
Print Assumptions C112_bootstrap.

(** Two states, fair at time 0; to stay has probability 2/3.  Nothing is seen at
    time 0; at time 1 the likelihoods are 1/2 and 1.  The filter's weights at
    time 0 are equal, but the smoothing weight of starting in the state of
    likelihood 1 is 5/12, of 3/4 in all.  Two particles and two trajectories, any number
    of rejection rounds with the bound 2/3. *)
Definition hmm_tp (x : bool) (_ : nat) (x' : bool) (_ : nat) : R := if Bool.eqb x x' then ln (3 / 2) else ln 3.
Definition hmm_lp (x : bool) (_ : obs) (t : nat) : R := if x then (match t with O => 0 | S _ => ln 2 end) else 0.
Definition hmm_samp (x : bool) (_ _ : nat) (z : list nat) : bool := if (nth 0 z 0 <? 4)%nat then x else negb x.

Lemma six_two u v f : u = v \/ u = v + ln 2 \/ v = u + ln 2 ->
  mean six (fun x => f (six_pick x [Fin u; Fin v])) = mean (cat_law [Fin u; Fin v]) f.
Proof.
  intros H. pose proof ln2_pos. rewrite mean_six. unfold six_pick, cat_law, mean. cbn.
  assert (E : forall r, exp (r + ln 2) = 2 * exp r) by (intros r; rewrite exp_plus, exp_ln by lra; ring).
  pose proof (exp_pos u). pose proof (exp_pos v).
  unfold Rltb. destruct H as [->|[->| ->]]; rewrite ?E; repeat destruct (Rlt_dec _ _); try lra; cbn; field; lra.
Qed.
Lemma six_two_n u v n phi : u = v \/ u = v + ln 2 \/ v = u + ln 2 ->
  mean (joint (repeat six n)) (fun x => phi (s_cat six_sampler x [Fin u; Fin v] n)) = expect (repeat (cat_law [Fin u; Fin v]) n) phi.
Proof.
  intros H. rewrite mean_joint.
  rewrite (expect_ext _ _ (fun w => phi (map (fun x => six_pick x [Fin u; Fin v]) w))).
  2:{ intros w Hw. apply Forall2_length_eq in Hw. rewrite repeat_length in Hw. cbn [s_cat six_sampler]. rewrite <- Hw.
      f_equal. apply (seq_nth_map (fun x => six_pick x [Fin u; Fin v])). }
  rewrite (expect_push _ (fun x => six_pick x [Fin u; Fin v])), map_repeat. apply expect_law. intros f.
  rewrite <- (mean_push six (fun x => six_pick x [Fin u; Fin v])). apply six_two, H.
Qed.
Lemma hmm_exp x x' t t' : exp (- hmm_tp x t x' t') = if Bool.eqb x x' then 2 / 3 else 1 / 3.
Proof. unfold hmm_tp. destruct (Bool.eqb x x'); rewrite exp_Ropp, exp_ln by lra; field. Qed.
Lemma hmm_ln : ln 3 = ln (3 / 2) + ln 2.
Proof. rewrite <- ln_mult by lra. f_equal. field. Qed.

Definition hmm_filter (w : key -> list nat) : pfilter bool nat :=
  bootstrap (keyed_model (fun (_ : bool) (_ : nat) => ln 2) hmm_tp hmm_lp (fun _ => coin_samp) hmm_samp w).

(** the particles after the two times *)
Lemma hmm_output w k thr p :
  run_particle_filter true (fun k => s_cat six_sampler (w k)) (hmm_filter w) 2 [[0]; [0]] [0%nat; 1%nat] k thr = Some p ->
  exists a b c d : bool, value p = [[a; b]; [c; d]] /\ times p = [0; 1]%nat
    /\ log_weight p = [[Fin 0; Fin 0]; [Fin (if c then - ln 2 else 0); Fin (if d then - ln 2 else 0)]].
Proof.
  intros H. unfold run_particle_filter, run_from in H. cbn -[filter_body six_sampler] in H.
  assert (L0 : forall x : bool, hmm_lp x [0] 0%nat = 0) by (intros []; reflexivity).
  rewrite !L0, !Ropp_0 in H.
  set (a := coin_samp _) in H. set (b := coin_samp (w (KSplit (KSplit k 2 1) 2 1))) in H.
  set (s := Marginal _ _ _ _ _) in H.
  assert (E : forall kk, exists c d : bool, filter_body true (fun k => s_cat six_sampler (w k)) (hmm_filter w) thr 2 s [0] 1%nat kk
    = Marginal [c; d] [Fin (if c then - ln 2 else 0); Fin (if d then - ln 2 else 0)] 1%nat [0] (ess_log_weight [Fin (if c then - ln 2 else 0); Fin (if d then - ln 2 else 0)])).
  { intros kk. unfold filter_body. cbv zeta.
    assert (L : forall c : bool, 0 + - hmm_lp c [0] 1%nat = if c then - ln 2 else 0) by (intros []; cbn; lra).
    assert (X0 : exists e f, (if xltb (m_ess s) (Fin (thr * INR 2)) then resample_row true (fun k => s_cat six_sampler (w k)) (m_value s) (m_lw s) kk else m_value s) = [e; f]).
    { destruct (xltb _ _); [|eexists _, _; reflexivity]. unfold resample_row, take. cbn. eexists _, _; reflexivity. }
    destruct X0 as (e & f & ->).
    assert (X1 : (if xltb (m_ess s) (Fin (thr * INR 2)) then zeros 2 else m_lw s) = [Fin 0; Fin 0]) by (destruct (xltb _ _); reflexivity).
    rewrite X1. cbn [m_value s length]. eexists _, _. cbn. rewrite !L. reflexivity. }
  destruct (E (KSplit (KSplit k 2 0) 1 0)) as (c & d & Ec). rewrite Ec in H. injection H as <-.
  exists a, b, c, d. repeat split.
Qed.

Lemma hmm_visited w thr r s y t : visited true [true; false] (hmm_filter w) thr 2 [0] 0%nat [([0], 1%nat)] ((y, t) :: r) s -> m_lw s = [Fin 0; Fin 0].
Proof.
  intros V.
  assert (LE : (length ((y, t) :: r) <= 1)%nat) by (clear -V; remember [([0], 1%nat)] as c; remember ((y, t) :: r) as z; clear Heqz; induction V; subst; cbn in *; lia).
  remember ((y, t) :: r) as z. destruct V as [vs kk s Lv Iv Es|y' t' r' s idx ys kk V].
  - destruct vs as [|a [|b [|? ?]]]; try discriminate. unfold initiate_particles, last_marginal in Es. cbn in Es. injection Es as <-. cbn [m_lw].
    destruct a, b; cbn; rewrite ?Ropp_0; reflexivity.
  - exfalso. subst r'.
    assert (LE' : (length ((y', t') :: (y, t) :: r) <= 1)%nat)
      by (clear -V; remember [([0], 1%nat)] as c; remember ((y', t') :: (y, t) :: r) as z; clear Heqz; induction V; subst; cbn in *; lia).
    cbn in LE'. lia.
Qed.

Example C112_example : forall maxrej thr k,
  has_mean (joint (repeat six 2))
    (weighted_trajectories true 0%nat hmm_tp six_sampler hmm_filter thr 2 2 maxrej (2 / 3) 1 [[0]; [0]] [0%nat; 1%nat] k
      (fun p => match p with false :: _ => 1 | _ => 0 end)) (5 / 12)
  /\ has_mean (joint (repeat six 2))
    (weighted_trajectories true 0%nat hmm_tp six_sampler hmm_filter thr 2 2 maxrej (2 / 3) 1 [[0]; [0]] [0%nat; 1%nat] k (fun _ => 1)) (3 / 4).
Proof.
  intros maxrej thr k.
  assert (X : exp (- ln 2) = / 2) by (rewrite exp_Ropp, exp_ln by lra; reflexivity).
  pose proof ln2_pos as P2. pose proof hmm_ln as L3.
  set (P := joint (repeat six 2)).
  assert (D : forall psi, has_mean P
    (weighted_trajectories true 0%nat hmm_tp six_sampler hmm_filter thr 2 2 maxrej (2 / 3) 1 [[0]; [0]] [0%nat; 1%nat] k psi)
    (smoothing (fun _ _ => ln 2) hmm_tp hmm_lp [true; false] [0] 0%nat [([0], 1%nat)] psi)).
  { intros psi.
    apply (C112_bootstrap bool nat (list nat) P true 0%nat [true; false] (fun _ _ => ln 2) hmm_tp hmm_lp (fun _ => coin_samp) hmm_samp
      six_sampler thr 2 2 maxrej (2 / 3) 1 [0] 0%nat [[0]] [1%nat] k psi).
    - apply six_prob.
    - lia.
    - lia.
    - reflexivity.
    - apply six_ok.
    - intros f. unfold P. rewrite coin_law. cbn. rewrite X. field.
    - intros x t t' f _. unfold P, hmm_samp. rewrite (six_first 2 (fun z => f (if (z <? 4)%nat then x else negb x))) by lia.
      rewrite mean_six. cbn [map Rsum]. rewrite !hmm_exp. destruct x; cbn; field.
    - intros t z. destruct (coin_samp z); cbn; auto.
    - intros x t t' z _. destruct (hmm_samp x t t' z); cbn; auto.
    - intros w y t r s V _ phi. rewrite (hmm_visited w thr r s y t V). apply six_two_n. left; reflexivity.
    - intros w p Hp. destruct (hmm_output w _ thr p Hp) as (a & b & c & d & -> & -> & ->). cbn [length]. split.
      + intros lw Hlw.
        assert (U : exists u v, lw = [Fin u; Fin v] /\ (u = v \/ u = v + ln 2 \/ v = u + ln 2)).
        { destruct Hlw as [(s & Hs & ->)|(s & x1 & Hs & _ & ->)].
          - destruct s as [|[|s]]; [| |lia]; cbn; eexists _, _; (split; [reflexivity|]); [lra|]. destruct c, d; lra.
          - assert (s = 0%nat) as -> by lia. cbn. eexists _, _. split; [reflexivity|]. unfold hmm_tp. destruct a, b, x1; cbn; lra. }
        destruct U as (u & v & -> & U). split; intros phi.
        * cbn [s_cat1 six_sampler]. unfold P. rewrite (six_first 2 (fun x => phi (six_pick x [Fin u; Fin v]))) by lia. apply six_two, U.
        * apply six_two_n, U.
      + intros _.
        assert (Q : forall q, ratio true 0%nat (fun x t x' t' => Fin (hmm_tp x t x' t')) [[a; b]; [c; d]]
          [[Fin 0; Fin 0]; [Fin (if c then - ln 2 else 0); Fin (if d then - ln 2 else 0)]] [0; 1]%nat 1 (2 / 3) q -> q = 1 \/ q = / 2).
        { intros q (s & x0 & x1 & _ & _ & _ & ->). unfold density. rewrite hmm_exp. destruct (Bool.eqb x0 x1); [left|right]; field. }
        split.
        * intros q phi H. cbn [s_unif six_sampler]. unfold P. rewrite (six_first 2 (fun x => phi (Rltb q (six_unif x)))) by lia. apply six_bern, Q, H.
        * intros qs phi L F. cbn [s_unifn six_sampler]. unfold P. rewrite mean_joint.
          rewrite <- (expect_law2 six bern (fun x q => Rltb q (six_unif x))).
          -- rewrite L. apply expect_ext. intros v Hv. apply Forall2_length_eq in Hv. rewrite repeat_length in Hv.
             rewrite <- Hv, (seq_nth_map six_unif). f_equal. clear. revert v. induction qs as [|q qs IH]; intros [|x v]; cbn; try reflexivity.
             f_equal. apply IH.
          -- intros q Hq g. apply six_bern, Q. rewrite Forall_forall in F. apply F, Hq.
    - intros _. split; [lra|]. intros x t x' t' _ _. rewrite hmm_exp. destruct (Bool.eqb x x'); lra. }
  split.
  - specialize (D (fun p => match p with false :: _ => 1 | _ => 0 end)).
    unfold smoothing in D. cbn [map Rsum path_sum] in D. rewrite !hmm_exp in D. cbn in D. rewrite X, Ropp_0, exp_0 in D.
    match type of D with has_mean _ _ ?v => replace (5 / 12) with v by field end. exact D.
  - specialize (D (fun _ => 1)).
    unfold smoothing in D. cbn [map Rsum path_sum] in D. rewrite !hmm_exp in D. cbn in D. rewrite X, Ropp_0, exp_0 in D.
    match type of D with has_mean _ _ ?v => replace (3 / 4) with v by field end. exact D.
Qed.
