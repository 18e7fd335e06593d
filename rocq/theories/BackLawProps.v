(** C107: the law of the trajectories of backward simulation. *)
From Coq Require Import Reals List Arith Bool Lia Lra.
From Verif Require Import XR Keys WeightsSpec McmcSpec SmcModel FilterModel FilterSpec UnbSpec UnbProofs KexpSpec KexpProofs
  BackModel BackSpec BackProofs BackProps BackLawSpec RejLawProofs BackLawProofs.
Import ListNotations.
Open Scope R_scope.

(** Backward simulation with the draws of the stream [w]; the result is the rows
    of the trajectories, or [None] for an exception. *)
Definition simulate {W X Tm} (sm : sampler W) (dx : X) (dt : Tm) pot V Wt ts n maxrej init_bound inflation (k : key) (w : key -> W)
  : option (list (list X)) :=
  option_map fst (backward_simulation dx pot (fun k => s_cat sm (w k)) (fun k => s_cat1 sm (w k))
    (fun k => s_unif sm (w k)) (fun k => s_unifn sm (w k)) dt V Wt ts k (Some n) maxrej init_bound inflation).

(** Full resampling: the trajectories are independent, each drawn backwards with
    weight times transition density. *)
Theorem C107_full_partial :
  forall (W : Type) (P : law W) (sm : sampler W) (X Tm : Type) (dx : X) (dt : Tm) pot V Wt ts T n init_bound inflation k,
  prob P -> sampler_ok sm ->
  (forall x t x' t', potential_value (pot x t x' t')) ->
  filter_rows (S T) V Wt ->
  (forall s, (s < T)%nat -> reachable dx pot (nth s V []) (nth s Wt []) (nth s ts dt)
                                      (nth (S s) V []) (nth (S s) Wt []) (nth (S s) ts dt)) ->
  cat_faithful P sm (drawn_from dx dt pot V Wt ts T) n ->
  has_law P (simulate sm dx dt pot V Wt ts n 0 init_bound inflation k)
    (fun phi => smoothing_mean dx dt pot V Wt ts T n (fun rows => phi (Some rows))).
Proof.
  intros W P sm X Tm dx dt pot V Wt ts T n ib infl k HP Hsm Hpot Hrows Hreach Hcat.
  exact (drawn_has_law P _ _ _ (full_sim_drawn P HP sm Hsm dx dt pot Hpot V Wt ts T n Hrows Hreach Hcat k)).
Qed.
Print Assumptions C107_full_partial.

(** Rejection with a bound that is at least every transition density: the same
    law, whatever the number of rejection rounds. *)
Theorem C107_bounded_partial :
  forall (W : Type) (P : law W) (sm : sampler W) (X Tm : Type) (dx : X) (dt : Tm) pot V Wt ts T n maxrej b inflation k,
  prob P -> sampler_ok sm ->
  (forall x t x' t', potential_value (pot x t x' t')) ->
  filter_rows (S T) V Wt ->
  (forall s, (s < T)%nat -> reachable dx pot (nth s V []) (nth s Wt []) (nth s ts dt)
                                      (nth (S s) V []) (nth (S s) Wt []) (nth (S s) ts dt)) ->
  cat_faithful P sm (drawn_from dx dt pot V Wt ts T) n ->
  unif_faithful P sm (ratio dx dt pot V Wt ts T b) n ->
  0 < b ->
  (forall s x0 x1, (s < T)%nat -> weighted_particle dx (nth s V []) (nth s Wt []) x0 ->
     weighted_particle dx (nth (S s) V []) (nth (S s) Wt []) x1 ->
     density (pot x0 (nth s ts dt) x1 (nth (S s) ts dt)) <= b) ->
  has_law P (simulate sm dx dt pot V Wt ts n maxrej b inflation k)
    (fun phi => smoothing_mean dx dt pot V Wt ts T n (fun rows => phi (Some rows))).
Proof.
  intros W P sm X Tm dx dt pot V Wt ts T n maxrej b infl k HP Hsm Hpot Hrows Hreach Hcat Hunif Hb Hbound.
  destruct maxrej as [|maxrej].
  - exact (drawn_has_law P _ _ _ (full_sim_drawn P HP sm Hsm dx dt pot Hpot V Wt ts T n Hrows Hreach Hcat k)).
  - exact (drawn_has_law P _ _ _ (rejection_sim_drawn P HP sm Hsm dx dt pot Hpot V Wt ts T n Hrows Hreach Hcat b infl (S maxrej) Hb Hbound Hunif k)).
Qed.
Print Assumptions C107_bounded_partial.

(** * An example for any number of trajectories

    Two particles 0 and 1 at each of two times, equal weights; to stay has
    density 1, to move 1/2. *)
Fixpoint joint {A} (ds : list (law A)) : law (list A) :=
  match ds with
  | [] => [([], 1)]
  | d :: ds' => flat_map (fun ap => map (fun lq => (fst ap :: fst lq, snd ap * snd lq)) (joint ds')) d
  end.
Lemma mean_joint {A} (ds : list (law A)) phi : mean (joint ds) phi = expect ds phi.
Proof.
  revert phi. induction ds as [|d ds IH]; intros phi; cbn [joint expect]; [unfold mean; cbn; lra|].
  transitivity (mean d (fun a => mean (joint ds) (fun l => phi (a :: l)))).
  - induction d as [|[a p] d IHd]; [reflexivity|]. unfold mean in *. cbn. rewrite map_app, map_map, <- IHd. cbn.
    assert (E : forall l m, Rsum (l ++ m) = Rsum l + Rsum m) by (induction l as [|x l IHl]; intros m; cbn; [lra|rewrite IHl; lra]).
    rewrite E. f_equal. rewrite <- Rsum_scal. apply Rsum_ext. intros; lra.
  - apply mean_fext. intros a. apply IH.
Qed.
Lemma expect_law {A} (d e : law A) n phi : (forall f, mean d f = mean e f) -> expect (repeat d n) phi = expect (repeat e n) phi.
Proof.
  intros H. revert phi. induction n as [|n IH]; intros phi; cbn; [reflexivity|].
  rewrite H. apply mean_fext. intros a. apply (IH (fun l => phi (a :: l))).
Qed.
Lemma expect_law2 {A B} (d : law A) (e : B -> law bool) (f : A -> B -> bool) bs phi :
  (forall b, In b bs -> forall g, mean d (fun a => g (f a b)) = mean (e b) g) ->
  expect (repeat d (length bs)) (fun l => phi (map (fun ab => f (fst ab) (snd ab)) (combine l bs))) = expect (map e bs) phi.
Proof.
  revert phi. induction bs as [|b bs IH]; intros phi H; cbn; [reflexivity|].
  rewrite <- (H b (or_introl eq_refl)). apply mean_fext. intros a.
  apply (IH (fun l => phi (f a b :: l))). intros b' Hb. apply H. right. exact Hb.
Qed.

Definition six : law nat := map (fun i => (i, / 6)) (seq 0 6).
Lemma mean_six f : mean six f = (f 0%nat + f 1%nat + f 2%nat + f 3%nat + f 4%nat + f 5%nat) / 6.
Proof. unfold mean, six. cbn. field. Qed.

Definition six_pick (x : nat) (lw : list xr) : nat :=
  match lw with
  | [Fin a; Fin b] => if Rltb b a then (if x <? 4 then 0 else 1) else if Rltb a b then (if x <? 2 then 0 else 1) else (if x <? 3 then 0 else 1)
  | _ => cat1_first (KRoot 0) lw
  end%nat.
Definition six_unif (x : nat) : R := (INR x + 1) / 7.
Definition six_sampler : sampler (list nat) :=
  Sampler _ (fun w lw => six_pick (nth 0 w 0%nat) lw)
            (fun w lw m => map (fun j => six_pick (nth j w 0%nat) lw) (seq 0 m))
            (fun w => six_unif (nth 0 w 0%nat))
            (fun w m => map (fun j => six_unif (nth j w 0%nat)) (seq 0 m)).

Definition stay_pot (x : nat) (_ : nat) (x' : nat) (_ : nat) : xr := if (x =? x')%nat then Fin 0 else Fin (ln 2).
Definition stay_V : list (list nat) := [[0; 1]; [0; 1]]%nat.
Definition stay_W : list (list xr) := [[Fin 0; Fin 0]; [Fin 0; Fin 0]].

Lemma six_pick_ok x lw : lw <> [] -> (six_pick x lw < length lw)%nat /\ (lw_ok lw -> finite (nth (six_pick x lw) lw NInf)).
Proof.
  intros N. pose proof (cat1_first_ok (KRoot 0) lw N) as H. unfold six_pick.
  destruct lw as [|[a| | |] [|[b| | |] [|? ?]]]; try exact H.
  repeat match goal with |- context [if ?c then _ else _] => destruct c end; cbn; (split; [lia|]); intros _; eexists; reflexivity.
Qed.
Lemma six_ok : sampler_ok six_sampler.
Proof.
  intros w. split; [|split].
  - intros k lw N. apply six_pick_ok, N.
  - intros k lw n Hn. cbn [s_cat six_sampler]. split; [rewrite map_length, seq_length; reflexivity|].
    assert (N : n <> 0%nat -> lw <> []) by (intros H E; apply H, Hn, E).
    split; [|intros O]; apply Forall_forall; intros i Hi; apply in_map_iff in Hi; destruct Hi as (j & <- & Hj); apply in_seq in Hj;
      apply six_pick_ok; try exact O; apply N; lia.
  - intros k n. cbn. rewrite map_length, seq_length. reflexivity.
Qed.


Lemma six_prob n : prob (joint (repeat six n)).
Proof.
  unfold prob. transitivity (mean (joint (repeat six n)) (fun _ => 1)).
  - unfold mean. apply Rsum_ext. intros; lra.
  - rewrite mean_joint. apply expect_const. apply Forall_forall. intros d Hd. apply repeat_spec in Hd. subst d.
    unfold prob, six. cbn. field.
Qed.
Lemma six_first n g : (0 < n)%nat -> mean (joint (repeat six n)) (fun w => g (nth 0 w 0%nat)) = mean six g.
Proof.
  intros Hn. destruct n as [|n]; [lia|]. rewrite mean_joint. cbn [repeat expect nth]. apply mean_fext. intros a. apply expect_const.
  apply Forall_forall. intros d Hd. apply repeat_spec in Hd. subst d. unfold prob, six. cbn. field.
Qed.
Lemma seq_nth_map {B} (f : nat -> B) (w : list nat) : map (fun j => f (nth j w 0%nat)) (seq 0 (length w)) = map f w.
Proof. induction w as [|x w IH]; [reflexivity|]. cbn. f_equal. rewrite <- IH, <- seq_shift, map_map. reflexivity. Qed.

Lemma exp_half : exp (- ln 2) = / 2.
Proof. rewrite exp_Ropp, exp_ln; lra. Qed.
Lemma ln2_pos : 0 < ln 2.
Proof. rewrite <- ln_1. apply ln_increasing; lra. Qed.

Lemma stay_particle s x : (s < 2)%nat -> weighted_particle 0%nat (nth s stay_V []) (nth s stay_W []) x <-> x = 0%nat \/ x = 1%nat.
Proof.
  intros Hs. assert (EV : nth s stay_V [] = [0; 1]%nat) by (destruct s as [|[|]]; [reflexivity|reflexivity|lia]).
  assert (EW : nth s stay_W [] = [Fin 0; Fin 0]) by (destruct s as [|[|]]; [reflexivity|reflexivity|lia]).
  rewrite EV, EW. split.
  - intros (i & Hi & -> & _). cbn in Hi. destruct i as [|[|i]]; cbn; [left|right|lia]; reflexivity.
  - intros [->| ->]; [exists 0%nat|exists 1%nat]; (split; [cbn; lia|]; split; [reflexivity|]; eexists; reflexivity).
Qed.
Lemma stay_rows : filter_rows 2 stay_V stay_W.
Proof.
  assert (O : lw_ok [Fin 0; Fin 0]).
  { split; [repeat (constructor; [right; eexists; reflexivity|]); constructor|]. apply Exists_cons_hd. eexists; reflexivity. }
  split; [reflexivity|]. split; [reflexivity|]. intros [|[|s]] Hs; [| |lia]; (split; [reflexivity|exact O]).
Qed.
Lemma stay_reach s : (s < 1)%nat -> reachable 0%nat stay_pot (nth s stay_V []) (nth s stay_W []) (nth s [0; 1]%nat 0%nat)
                                      (nth (S s) stay_V []) (nth (S s) stay_W []) (nth (S s) [0; 1]%nat 0%nat).
Proof.
  intros Hs x1 H1. exists x1. split; [apply stay_particle; [lia|]; apply (stay_particle (S s)); [lia|exact H1]|].
  unfold stay_pot. rewrite Nat.eqb_refl. eexists; reflexivity.
Qed.
Lemma stay_ok x t x' t' : potential_value (stay_pot x t x' t').
Proof. left. unfold stay_pot. destruct (x =? x')%nat; eexists; reflexivity. Qed.
Lemma stay_density x t x' t' : density (stay_pot x t x' t') = if (x =? x')%nat then 1 else / 2.
Proof. unfold stay_pot. destruct (x =? x')%nat; cbn; [rewrite Ropp_0; apply exp_0|apply exp_half]. Qed.

(** the three lists of log weights *)
Lemma stay_drawn lw : drawn_from 0%nat 0%nat stay_pot stay_V stay_W [0; 1]%nat 1 lw ->
  lw = [Fin 0; Fin 0] \/ lw = [Fin 0; Fin (- ln 2)] \/ lw = [Fin (- ln 2); Fin 0].
Proof.
  intros [(s & Hs & ->)|(s & x1 & Hs & H1 & ->)].
  - left. destruct s as [|[|]]; [reflexivity|reflexivity|lia].
  - assert (s = 0%nat) as -> by lia. apply (stay_particle 1) in H1; [|lia]. right.
    destruct H1 as [->| ->]; cbn; [left|right]; repeat f_equal; lra.
Qed.
Lemma six_cat lw f : drawn_from 0%nat 0%nat stay_pot stay_V stay_W [0; 1]%nat 1 lw ->
  mean six (fun x => f (six_pick x lw)) = mean (cat_law lw) f.
Proof.
  intros H. pose proof ln2_pos. rewrite mean_six.
  destruct (stay_drawn lw H) as [->|[->| ->]]; unfold six_pick, cat_law, mean; cbn.
  - destruct (Rltb 0 0) eqn:E; [apply Rltb_true in E; lra|]. rewrite exp_0. field.
  - replace (Rltb (- ln 2) 0) with true by (symmetry; apply Rltb_true; lra). rewrite exp_0, exp_half. field.
  - replace (Rltb 0 (- ln 2)) with false by (symmetry; apply Rltb_false; lra).
    replace (Rltb (- ln 2) 0) with true by (symmetry; apply Rltb_true; lra). rewrite exp_0, exp_half. field.
Qed.
Lemma six_faithful n : (0 < n)%nat -> cat_faithful (joint (repeat six n)) six_sampler (drawn_from 0%nat 0%nat stay_pot stay_V stay_W [0; 1]%nat 1) n.
Proof.
  intros Hn lw H. split; intros phi.
  - cbn [s_cat1 six_sampler]. rewrite (six_first n (fun x => phi (six_pick x lw)) Hn). apply (six_cat lw phi H).
  - cbn [s_cat six_sampler]. rewrite mean_joint.
    rewrite (expect_ext _ _ (fun w => phi (map (fun x => six_pick x lw) w))).
    2:{ intros w Hw. apply Forall2_length_eq in Hw. rewrite repeat_length in Hw. rewrite <- Hw.
        f_equal. apply (seq_nth_map (fun x => six_pick x lw)). }
    rewrite (expect_push _ (fun x => six_pick x lw)), map_repeat. apply expect_law. intros f.
    rewrite <- (mean_push six (fun x => six_pick x lw)). apply (six_cat lw f H).
Qed.
Lemma six_bern q g : q = 1 \/ q = / 2 -> mean six (fun x => g (Rltb q (six_unif x))) = mean (bern q) g.
Proof.
  intros H. rewrite mean_six, mean_bern.
  assert (E : forall x, Rltb q (six_unif x) = if Rlt_dec q ((INR x + 1) / 7) then true else false) by reflexivity.
  rewrite !E. cbn [INR].
  destruct H as [->| ->]; repeat (destruct (Rlt_dec _ _) as [?|?]; try lra).
Qed.
Lemma six_uniform n : (0 < n)%nat -> unif_faithful (joint (repeat six n)) six_sampler (ratio 0%nat 0%nat stay_pot stay_V stay_W [0; 1]%nat 1 1) n.
Proof.
  intros Hn.
  assert (Q : forall q, ratio 0%nat 0%nat stay_pot stay_V stay_W [0; 1]%nat 1 1 q -> q = 1 \/ q = / 2).
  { intros q (s & x0 & x1 & _ & _ & _ & ->). rewrite stay_density. destruct (x0 =? x1)%nat; [left|right]; field. }
  split.
  - intros q phi H. cbn [s_unif six_sampler]. rewrite (six_first n (fun x => phi (Rltb q (six_unif x))) Hn). apply six_bern, Q, H.
  - intros qs phi L F. cbn [s_unifn six_sampler]. rewrite mean_joint.
    rewrite <- (expect_law2 six bern (fun x q => Rltb q (six_unif x))).
    + rewrite L. apply expect_ext. intros w Hw. apply Forall2_length_eq in Hw. rewrite repeat_length in Hw.
      rewrite <- Hw, (seq_nth_map six_unif). f_equal. clear. revert w. induction qs as [|q qs IH]; intros [|x w]; cbn; try reflexivity.
      f_equal. apply IH.
    + intros q Hq g. apply six_bern, Q. rewrite Forall_forall in F. apply F, Hq.
Qed.

(** two trajectories: both stay with probability 4/9, whatever the number of
    rejection rounds *)
Definition both_stay (r : option (list (list nat))) : R :=
  match r with Some [[a; b]; [a'; b']] => if ((a =? a') && (b =? b'))%nat then 1 else 0 | _ => 0 end.
Example C107_example : forall maxrej k,
  has_mean (joint (repeat six 2)) (fun w => both_stay (simulate six_sampler 0%nat 0%nat stay_pot stay_V stay_W [0; 1]%nat 2 maxrej 1 (101 / 100) k w)) (4 / 9).
Proof.
  intros maxrej k.
  destruct (C107_bounded_partial _ (joint (repeat six 2)) six_sampler nat nat 0%nat 0%nat stay_pot stay_V stay_W [0; 1]%nat 1 2 maxrej 1 (101 / 100) k
    (six_prob 2) six_ok stay_ok stay_rows stay_reach (six_faithful 2 ltac:(lia)) (six_uniform 2 ltac:(lia)) ltac:(lra)) as [ks H].
  { intros s x0 x1 _ _ _. rewrite stay_density. destruct (x0 =? x1)%nat; lra. }
  exists ks. specialize (H both_stay). cbv beta in H.
  replace (4 / 9) with (smoothing_mean 0%nat 0%nat stay_pot stay_V stay_W [0; 1]%nat 1 2 (fun rows => both_stay (Some rows))); [exact H|].
  unfold smoothing_mean. cbn [repeat expect]. unfold particle_law, stay_V, stay_W, mean. cbn.
  unfold mean, back_law, back_weight. cbn. rewrite ?Ropp_0, ?exp_0, ?exp_half. field.
Qed.

(** * The default bound

    With [transition_dens_bound_parameter = 0], its default, the first bound is
    computed from the candidates that are then tested with it.  A single
    trajectory keeps its first candidate with probability 1 / 1.01 whatever its
    density: in the example it moves with probability at least 50/101, where 1/3
    is right. *)
Definition thr_law : law R := [(/ 4, 50 / 101); (3 / 4, 50 / 101); (199 / 200, / 101)].
Definition single_law : law (nat * R) := flat_map (fun ap => map (fun uq => ((fst ap, fst uq), snd ap * snd uq)) thr_law) six.
Definition single_sampler : sampler (nat * R) :=
  Sampler _ (fun w lw => six_pick (fst w) lw) (fun w lw m => repeat (six_pick (fst w) lw) m) (fun w => snd w) (fun w m => repeat (snd w) m).
Lemma mean_single f : mean single_law f = mean six (fun x => mean thr_law (fun u => f (x, u))).
Proof. unfold single_law, six, thr_law, mean. cbn. field. Qed.
Lemma thr_prob : prob thr_law. Proof. unfold prob, thr_law. cbn. field. Qed.
Lemma six_prob1 : prob six. Proof. unfold prob, six. cbn. field. Qed.
Lemma single_prob : prob single_law.
Proof.
  unfold prob. transitivity (mean single_law (fun _ => 1)); [unfold mean; apply Rsum_ext; intros; lra|].
  rewrite mean_single, (mean_fext _ _ (fun _ => 1)); [apply mean_const, six_prob1|]. intros x. apply mean_const, thr_prob.
Qed.
Lemma single_pos xp : In xp single_law -> 0 <= snd xp.
Proof.
  unfold single_law. intros H. apply in_flat_map in H. destruct H as (ap & Ha & H). apply in_map_iff in H.
  destruct H as (uq & <- & Hu). cbn [snd].
  unfold six in Ha. apply in_map_iff in Ha. destruct Ha as (i & <- & _).
  unfold thr_law in Hu. cbn in Hu. destruct Hu as [<-|[<-|[<-|[]]]]; cbn; lra.
Qed.
Lemma single_ok : sampler_ok single_sampler.
Proof.
  intros w. split; [|split].
  - intros k lw N. apply six_pick_ok, N.
  - intros k lw n Hn. cbn [s_cat single_sampler]. split; [apply repeat_length|].
    assert (N : n <> 0%nat -> lw <> []) by (intros H E; apply H, Hn, E).
    split; [|intros O]; apply Forall_forall; intros i Hi; pose proof (repeat_spec _ _ _ Hi) as ->;
      (assert (n <> 0%nat) by (intros ->; exact Hi)); apply six_pick_ok; try exact O; apply N; assumption.
  - intros k n. apply repeat_length.
Qed.
Lemma single_fst f : mean single_law (fun w => f (fst w)) = mean six f.
Proof. rewrite mean_single. apply mean_fext. intros x. cbn [fst]. apply mean_const, thr_prob. Qed.
Lemma single_snd f : mean single_law (fun w => f (snd w)) = mean thr_law f.
Proof. rewrite mean_single. cbn [snd]. apply mean_const, six_prob1. Qed.
Lemma single_faithful : cat_faithful single_law single_sampler (drawn_from 0%nat 0%nat stay_pot stay_V stay_W [0; 1]%nat 1) 1.
Proof.
  intros lw H. split; intros phi; cbn [s_cat1 s_cat single_sampler repeat expect].
  - rewrite (single_fst (fun x => phi (six_pick x lw))). apply (six_cat lw phi H).
  - rewrite (single_fst (fun x => phi [six_pick x lw])). apply (six_cat lw (fun i => phi [i]) H).
Qed.

(** what one move is worth *)
Definition moved (r : option (list (list nat))) : R :=
  match r with Some [[a]; [a']] => if (a =? a')%nat then 0 else 1 | _ => 0 end.

Theorem C107_default_bound_refuted :
  exists (W : Type) (P : law W) (sm : sampler W) (pot : nat -> nat -> nat -> nat -> xr) V Wt,
  prob P /\ (forall xp, In xp P -> 0 <= snd xp) /\ sampler_ok sm
  /\ (forall x t x' t', potential_value (pot x t x' t'))
  /\ filter_rows 2 V Wt
  /\ (forall s, (s < 1)%nat -> reachable 0%nat pot (nth s V []) (nth s Wt []) (nth s [0; 1]%nat 0%nat)
                                      (nth (S s) V []) (nth (S s) Wt []) (nth (S s) [0; 1]%nat 0%nat))
  /\ cat_faithful P sm (drawn_from 0%nat 0%nat pot V Wt [0; 1]%nat 1) 1
  (* uniform at every ratio of two densities and the inflation *)
  /\ (forall d d' phi psi, (d = 1 \/ d = / 2) -> (d' = 1 \/ d' = / 2) ->
       let q := d / (d' * (101 / 100)) in
       mean P (fun x => phi (Rltb q (s_unif sm x))) = mean (bern (Rmin 1 q)) phi
       /\ mean P (fun x => psi (map (Rltb q) (s_unifn sm x 1))) = mean (bern (Rmin 1 q)) (fun r => psi [r]))
  /\ (forall x t x' t', density (pot x t x' t') = 1 \/ density (pot x t x' t') = / 2)
  (* the right probability of a move is 1/3, the probability of the program at
     least 50/101 *)
  /\ smoothing_mean 0%nat 0%nat pot V Wt [0; 1]%nat 1 1 (fun rows => moved (Some rows)) = 1 / 3
  /\ forall maxrej k v, (1 <= maxrej)%nat ->
     has_mean P (fun w => moved (simulate sm 0%nat 0%nat pot V Wt [0; 1]%nat 1 maxrej 0 (101 / 100) k w)) v -> 50 / 101 <= v.
Proof.
  exists (nat * R)%type, single_law, single_sampler, stay_pot, stay_V, stay_W.
  split; [exact single_prob|]. split; [exact single_pos|]. split; [exact single_ok|]. split; [exact stay_ok|].
  split; [exact stay_rows|]. split; [exact stay_reach|]. split; [exact single_faithful|].
  split.
  { intros d d' phi psi Hd Hd' q.
    assert (B : forall g, mean thr_law (fun u => g (Rltb q u)) = mean (bern (Rmin 1 q)) g).
    { intros g. rewrite mean_bern. unfold thr_law, mean. cbn.
      assert (Eq : q = 100 / 101 \/ q = 200 / 101 \/ q = 50 / 101) by (unfold q; destruct Hd as [->| ->], Hd' as [->| ->]; lra).
      clearbody q. clear d d' Hd Hd'. unfold Rmin, Rltb.
      destruct Eq as [->|[->| ->]]; destruct (Rle_dec 1 _); try lra;
        repeat (destruct (Rlt_dec _ _) as [?|?]; try lra). }
    cbn [s_unif s_unifn single_sampler repeat map]. split.
    - rewrite (single_snd (fun u => phi (Rltb q u))). apply B.
    - rewrite (single_snd (fun u => psi [Rltb q u])). apply (B (fun r => psi [r])). }
  split. { intros. rewrite stay_density. destruct (x =? x')%nat; [left|right]; reflexivity. }
  split.
  { unfold smoothing_mean. cbn [repeat expect]. unfold particle_law, stay_V, stay_W, mean. cbn.
    unfold mean, back_law, back_weight. cbn. rewrite ?Ropp_0, ?exp_0, ?exp_half. field. }
  intros maxrej k v Hm Hv.
  (* the first candidate moves and is kept *)
  set (k1 := KSplit k 2 1). set (k2 := KSplit (KSplit k 2 0) 3 0). set (k3 := KSplit (KSplit k 2 0) 3 1).
  set (pick := fun x => six_pick x [Fin 0; Fin 0]).
  set (G := fun w : key -> nat * R => if (pick (fst (w k2)) =? pick (fst (w k1)))%nat then 0
     else if Rltb (100 / 101) (snd (w k3)) then 0 else 1).
  apply (has_mean_le single_law single_prob single_pos G
    (fun w => moved (simulate single_sampler 0%nat 0%nat stay_pot stay_V stay_W [0; 1]%nat 1 maxrej 0 (101 / 100) k w)) (50 / 101) v); [| |exact Hv].
  - intros w. unfold G. destruct (Nat.eqb_spec (pick (fst (w k2))) (pick (fst (w k1)))) as [_|N].
    { unfold moved. destruct (simulate _ _ _ _ _ _ _ _ _ _ _ _ _) as [[|[|a [|]] [|[|a' [|]] [|]]]|]; try lra. destruct (a =? a')%nat; lra. }
    destruct (Rltb (100 / 101) (snd (w k3))) eqn:Eu.
    { unfold moved. destruct (simulate _ _ _ _ _ _ _ _ _ _ _ _ _) as [[|[|a [|]] [|[|a' [|]] [|]]]|]; try lra. destruct (a =? a')%nat; lra. }
    apply Rltb_false in Eu.
    assert (Hp : forall x, nth (pick x) [0; 1]%nat 0%nat = pick x).
    { intros x. unfold pick, six_pick. destruct (Rltb 0 0); [destruct (x <? 4)%nat; reflexivity|]. destruct (x <? 3)%nat; reflexivity. }
    assert (E : simulate single_sampler 0%nat 0%nat stay_pot stay_V stay_W [0; 1]%nat 1 maxrej 0 (101 / 100) k w
      = Some [[pick (fst (w k2))]; [pick (fst (w k1))]]).
    { unfold simulate, backward_simulation. destruct (Nat.ltb_spec 0 maxrej) as [_|]; [|lia].
      unfold back_sim. cbn [length stay_V].
      cbn [seq rev app back_scan map fst]. unfold body_rejection, rejection_resampling.
      cbn [nth stay_V stay_W s_cat single_sampler repeat]. unfold take. cbn [map length].
      change (six_pick (fst (w (KSplit k 2 1))) [Fin 0; Fin 0]) with (pick (fst (w k1))). rewrite Hp.
      unfold rejection, rej_start. cbn [seq combine map fst snd s_unifn single_sampler repeat].
      change (nth 0 [pick (fst (w k1))] 0%nat) with (pick (fst (w k1))).
      change (six_pick (fst (w (KSplit (KSplit k 2 0) 3 0))) [Fin 0; Fin 0]) with (pick (fst (w k2))). rewrite Hp.
      set (a := pick (fst (w k2))) in *. set (a' := pick (fst (w k1))) in *.
      assert (Ed : xexp (xopp (stay_pot a 0%nat a' 1%nat)) = Fin (/ 2)).
      { unfold stay_pot. destruct (Nat.eqb_spec a a') as [E|_]; [contradiction|]. cbn. f_equal. apply exp_half. }
      rewrite Ed. cbn [xmaxl fold_right xmax2 xltb].
      replace (Rltb 0 (/ 2)) with true by (symmetry; apply Rltb_true; lra).
      cbn [xmul xquot xdiv].
      destruct (Req_EM_T (/ 2 * (101 / 100)) 0) as [?|_]; [lra|]. cbn [xltb].
      fold k3. replace (Rltb (/ 2 / (/ 2 * (101 / 100))) (snd (w k3))) with false by (symmetry; apply Rltb_false; lra).
      destruct maxrej as [|m]; [lia|]. reflexivity. }
    rewrite E. cbn [moved]. destruct (Nat.eqb_spec (pick (fst (w k2))) (pick (fst (w k1)))) as [?|_]; [contradiction|lra].
  - assert (D : drawn single_law ([k1] ++ [k2] ++ [k3]) G (fun phi =>
      mean single_law (fun x1 => mean single_law (fun x2 => mean single_law (fun x3 =>
        phi (if (pick (fst x2) =? pick (fst x1))%nat then 0 else if Rltb (100 / 101) (snd x3) then 0 else 1)))))).
    { pose proof (drawn_bind single_law [k1] ([k2] ++ [k3]) (fun w => w k1)
        (fun x1 w => if (pick (fst (w k2)) =? pick (fst x1))%nat then 0 else if Rltb (100 / 101) (snd (w k3)) then 0 else 1)
        (mean single_law) (fun x1 phi => mean single_law (fun x2 => mean single_law (fun x3 =>
        phi (if (pick (fst x2) =? pick (fst x1))%nat then 0 else if Rltb (100 / 101) (snd x3) then 0 else 1))))) as HH.
      apply HH; clear HH.
      - apply (drawn_key single_law single_prob k1 (fun x => x)).
      - intros q [<-|[]] [E|[E|[]]]; discriminate.
      - intros w. set (x1 := w k1). clearbody x1.
        pose proof (drawn_bind single_law [k2] [k3] (fun w => w k2)
          (fun x2 w => if (pick (fst x2) =? pick (fst x1))%nat then 0 else if Rltb (100 / 101) (snd (w k3)) then 0 else 1)
          (mean single_law) (fun x2 phi => mean single_law (fun x3 =>
          phi (if (pick (fst x2) =? pick (fst x1))%nat then 0 else if Rltb (100 / 101) (snd x3) then 0 else 1)))) as HH.
        apply HH; clear HH.
        + apply (drawn_key single_law single_prob k2 (fun x => x)).
        + intros q [<-|[]] [E|[]]; discriminate.
        + intros w'. set (x2 := w' k2). clearbody x2.
          apply (drawn_key single_law single_prob k3 (fun x3 => if (pick (fst x2) =? pick (fst x1))%nat then 0 else if Rltb (100 / 101) (snd x3) then 0 else 1)). }
    exists ([k1] ++ [k2] ++ [k3]).
    replace (50 / 101) with (mean single_law (fun x1 => mean single_law (fun x2 => mean single_law (fun x3 =>
        (fun r => r) (if (pick (fst x2) =? pick (fst x1))%nat then 0 else if Rltb (100 / 101) (snd x3) then 0 else 1))))).
    + apply (proj2 D (fun r => r)).
    + transitivity (mean six (fun x1 => mean six (fun x2 => if (pick x2 =? pick x1)%nat then 0 else 100 / 101))).
      * rewrite <- single_fst. apply mean_fext. intros x1. rewrite <- single_fst. apply mean_fext. intros x2.
        destruct (pick (fst x2) =? pick (fst x1))%nat; [apply mean_const, single_prob|].
        rewrite (single_snd (fun u => if Rltb (100 / 101) u then 0 else 1)). unfold thr_law, mean, Rltb. cbn.
        repeat (destruct (Rlt_dec _ _) as [?|?]; try lra).
      * assert (Ep : forall x, pick x = if (x <? 3)%nat then 0%nat else 1%nat).
        { intros x. unfold pick, six_pick. destruct (Rltb 0 0) eqn:E; [apply Rltb_true in E; lra|reflexivity]. }
        rewrite !mean_six. rewrite !Ep. cbn. field.
Qed.
Print Assumptions C107_default_bound_refuted.
