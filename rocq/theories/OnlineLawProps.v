(** C120: the law of the trajectories of fixed-lag stitching. *)
From Coq Require Import Reals List Arith Bool Lia Lra.
From Verif Require Import XR Keys WeightsSpec McmcSpec SmcModel FilterModel FilterSpec UnbSpec UnbProofs KexpSpec KexpProofs
  BackModel BackSpec BackProofs BackProps BackLawSpec RejLawProofs BackLawProofs BackLawProps OnlineModel OnlineLawSpec OnlineLawProofs.
Import ListNotations.
Open Scope R_scope.

(** Stitching with the draws of the stream [w]; the result is the rows of the
    trajectories, or [None] for an exception. *)
Definition stitch {W X Tm} (sm : sampler W) (dx : X) pot early (t : Tm) recent lw t1 maxrej init_bound inflation (k : key) (w : key -> W)
  : option (list (list X)) :=
  option_map fst (fixed_lag_stitching dx pot (fun k => s_cat sm (w k)) (fun k => s_cat1 sm (w k))
    (fun k => s_unif sm (w k)) (fun k => s_unifn sm (w k)) early t recent lw t1 k maxrej init_bound inflation).

Lemma at_last_last {A} (l : list A) e : l <> [] -> at_last l = Some (last l e).
Proof. intros H. destruct (exists_last H) as (l' & a & ->). rewrite last_last. unfold at_last. rewrite rev_app_distr. reflexivity. Qed.

(** Without rejection: every early trajectory independently gets a recent one by
    its stitching weight. *)
Theorem C120_full_partial :
  forall (W : Type) (P : law W) (sm : sampler W) (X Tm : Type) (dx : X) pot early (t t1 : Tm) xv x1 rest lw init_bound inflation k,
  prob P -> sampler_ok sm ->
  (forall x t x' t', potential_value (pot x t x' t')) ->
  early <> [] -> length (last early []) = length lw ->
  stitchable dx pot t t1 xv x1 lw (last early []) ->
  cat_faithful P sm (stitch_from dx pot t t1 xv x1 lw (last early [])) (length lw) ->
  has_law P (stitch sm dx pot early t (xv :: x1 :: rest) lw t1 0 init_bound inflation k)
    (fun phi => stitch_mean dx pot t t1 early (xv :: x1 :: rest) lw (fun rows => phi (Some rows))).
Proof.
  intros W P sm X Tm dx pot early t t1 xv x1 rest lw ib infl k HP Hsm Hpot Ne Le Hs Hcat.
  apply (drawn_has_law P (map (fun j => KSplit k (length (last early [])) j) (seq 0 (length (last early []))))).
  apply (drawn_ext P) with (a := fun w => Some (early ++ map (fun row => take dx row
    (full_stitch pot (fun k => s_cat1 sm (w k)) (last early []) t x1 t1 (free_lw dx pot t t1 xv x1 lw) k)) (x1 :: rest))).
  { intros w. unfold stitch, fixed_lag_stitching. rewrite (at_last_last early [] Ne). cbv zeta. cbn [Nat.ltb Nat.leb fst option_map].
    change (nth_clamp 1 (xv :: x1 :: rest) []) with x1. rewrite (free_eq dx pot t t1 xv x1 lw (last early []) Hs). reflexivity. }
  unfold stitch_mean. cbn [nth List.tl].
  apply (drawn_map P _ _ (fun idx => Some (early ++ map (fun row => take dx row idx) (x1 :: rest))) (expect (map (stitch_law dx pot t t1 xv x1 lw) (last early [])))).
  apply (full_stitch_drawn P HP sm dx pot Hpot t t1 xv x1 lw (last early []) Hs Hcat k (length (last early [])) 0 (last early [])).
  apply incl_refl.
Qed.
Print Assumptions C120_full_partial.

(** Rejection with a bound that is at least every transition density: the same
    law, whatever the number of rejection rounds. *)
Theorem C120_bounded_partial :
  forall (W : Type) (P : law W) (sm : sampler W) (X Tm : Type) (dx : X) pot early (t t1 : Tm) xv x1 rest lw maxrej b inflation k,
  prob P -> sampler_ok sm ->
  (forall x t x' t', potential_value (pot x t x' t')) ->
  early <> [] -> length (last early []) = length lw ->
  stitchable dx pot t t1 xv x1 lw (last early []) ->
  cat_faithful P sm (stitch_from dx pot t t1 xv x1 lw (last early [])) (length lw) ->
  unif_faithful P sm (stitch_ratio dx pot t t1 x1 lw (last early []) b) (length lw) ->
  0 < b ->
  (forall x0 a, In x0 (last early []) -> (a < length lw)%nat -> finite (nth a lw NInf) -> density (pot x0 t (nth a x1 dx) t1) <= b) ->
  has_law P (stitch sm dx pot early t (xv :: x1 :: rest) lw t1 maxrej b inflation k)
    (fun phi => stitch_mean dx pot t t1 early (xv :: x1 :: rest) lw (fun rows => phi (Some rows))).
Proof.
  intros W P sm X Tm dx pot early t t1 xv x1 rest lw maxrej b infl k HP Hsm Hpot Ne Le Hs Hcat Hunif Hb Hbound.
  destruct maxrej as [|maxrej]; [apply C120_full_partial; assumption|].
  apply (drawn_has_law P (rej_keys (length lw) (S maxrej) k)).
  apply (drawn_ext P) with (a := fun w => Some (early ++ map (fun row => take dx row
    (fst (rejection_stitching dx pot (fun k => s_cat sm (w k)) (fun k => s_cat1 sm (w k)) (fun k => s_unif sm (w k)) (fun k => s_unifn sm (w k))
       (last early []) t x1 t1 (free_lw dx pot t t1 xv x1 lw) k (S maxrej) b infl))) (x1 :: rest))).
  { intros w. unfold stitch, fixed_lag_stitching. rewrite (at_last_last early [] Ne). cbv zeta. cbn [Nat.ltb Nat.leb fst option_map].
    change (nth_clamp 1 (xv :: x1 :: rest) []) with x1. rewrite (free_eq dx pot t t1 xv x1 lw (last early []) Hs). reflexivity. }
  unfold stitch_mean. cbn [nth List.tl].
  apply (drawn_map P _ _ (fun idx => Some (early ++ map (fun row => take dx row idx) (x1 :: rest))) (expect (map (stitch_law dx pot t t1 xv x1 lw) (last early [])))).
  apply (rejection_stitch_drawn P HP sm Hsm dx pot Hpot t t1 xv x1 lw (last early []) Hs Hcat Le b infl (S maxrej) Hb Hbound Hunif k).
Qed.
Print Assumptions C120_bounded_partial.

(** * An example

    Early trajectories end in 0 and 1; recent ones go from 0 to 0 and from 1 to 1;
    to stay has density 1, to move 1/2.  Both early trajectories stay with
    probability 4/9. *)
Lemma two_stitchable : stitchable 0%nat stay_pot 0%nat 1%nat [0; 1]%nat [0; 1]%nat [Fin 0; Fin 0] [0; 1]%nat.
Proof.
  assert (O : lw_ok [Fin 0; Fin 0]).
  { split; [repeat (constructor; [right; eexists; reflexivity|]); constructor|]. apply Exists_cons_hd. eexists; reflexivity. }
  split; [reflexivity|]. split; [reflexivity|]. split; [exact O|]. split.
  - intros a _. unfold stay_pot. rewrite Nat.eqb_refl. eexists; reflexivity.
  - intros x0 H. exists 0%nat. split; [cbn; lia|]. split; [eexists; reflexivity|].
    unfold stay_pot. destruct (x0 =? _)%nat; eexists; reflexivity.
Qed.
Lemma two_from lw : stitch_from 0%nat stay_pot 0%nat 1%nat [0; 1]%nat [0; 1]%nat [Fin 0; Fin 0] [0; 1]%nat lw ->
  drawn_from 0%nat 0%nat stay_pot stay_V stay_W [0; 1]%nat 1 lw.
Proof.
  intros [->|(x0 & Hx & ->)].
  - left. exists 0%nat. split; [lia|]. cbn. repeat f_equal; lra.
  - right. exists 0%nat, x0. split; [lia|]. split; [apply (stay_particle 1); [lia|]; destruct Hx as [<-|[<-|[]]]; auto|].
    destruct Hx as [<-|[<-|[]]]; cbn; repeat f_equal; lra.
Qed.
Lemma two_ratio b q : stitch_ratio 0%nat stay_pot 0%nat 1%nat [0; 1]%nat [Fin 0; Fin 0] [0; 1]%nat b q -> q = 1 / b \/ q = / 2 / b.
Proof. intros (x0 & a & _ & _ & _ & ->). rewrite stay_density. destruct (x0 =? _)%nat; auto. Qed.

Definition both_kept (r : option (list (list nat))) : R :=
  match r with Some [[0; 1]; [0; 1]]%nat => 1 | _ => 0 end.
Definition both_moved (r : option (list (list nat))) : R :=
  match r with Some [[0; 1]; [1; 0]]%nat => 1 | _ => 0 end.
Notation two_mean := (stitch_mean 0%nat stay_pot 0%nat 1%nat [[0; 1]]%nat [[0; 1]; [0; 1]]%nat [Fin 0; Fin 0]).
Lemma two_values : two_mean (fun rows => both_kept (Some rows)) = 4 / 9 /\ two_mean (fun rows => both_moved (Some rows)) = 1 / 9.
Proof.
  unfold stitch_mean. cbn [last map expect]. unfold stitch_law, mean. cbn.
  unfold mean, stitch_weight, stay_pot. cbn. rewrite ?Ropp_0, ?exp_0, ?exp_half. split; field.
Qed.

Example C120_example : forall maxrej k,
  has_mean (joint (repeat six 2)) (fun w => both_kept (stitch six_sampler 0%nat stay_pot [[0; 1]]%nat 0%nat [[0; 1]; [0; 1]]%nat [Fin 0; Fin 0]
    1%nat maxrej 1 (101 / 100) k w)) (4 / 9).
Proof.
  intros maxrej k.
  destruct (C120_bounded_partial _ (joint (repeat six 2)) six_sampler nat nat 0%nat stay_pot [[0; 1]]%nat 0%nat 1%nat [0; 1]%nat [0; 1]%nat []
    [Fin 0; Fin 0] maxrej 1 (101 / 100) k (six_prob 2) six_ok stay_ok) as [ks H]; try discriminate; try reflexivity; try lra.
  - exact two_stitchable.
  - intros lw H. apply (six_faithful 2); [lia|]. apply two_from, H.
  - destruct (six_uniform 2) as [U1 U2]; [lia|].
    assert (Q : forall q, stitch_ratio 0%nat stay_pot 0%nat 1%nat [0; 1]%nat [Fin 0; Fin 0] (last [[0; 1]]%nat []) 1 q ->
      ratio 0%nat 0%nat stay_pot stay_V stay_W [0; 1]%nat 1 1 q).
    { intros q (x0 & a & Hx & Ha & _ & ->). exists 0%nat, x0, (nth a [0; 1]%nat 0%nat). split; [lia|].
      split; [apply (stay_particle 0); [lia|]; destruct Hx as [<-|[<-|[]]]; auto|].
      split; [apply (stay_particle 1); [lia|]; destruct a as [|[|a]]; cbn in *; auto; lia|]. reflexivity. }
    split.
    + intros q phi Hq. apply U1, Q, Hq.
    + intros qs phi L F. apply U2; [exact L|]. eapply Forall_impl; [|exact F]. exact Q.
  - intros x0 a _ _ _. rewrite stay_density. destruct (x0 =? _)%nat; lra.
  - exists ks. specialize (H both_kept). cbv beta in H. rewrite (proj1 two_values) in H. exact H.
Qed.

(** * The default bound

    With [init_bound_param = 0], its default, the first bound is computed from
    the candidates that are then tested with it. *)
Definition duo_law : law (list (nat * R)) := joint (repeat single_law 2).
Definition duo_sampler : sampler (list (nat * R)) :=
  Sampler _ (fun w lw => six_pick (fst (nth 0 w (0%nat, 0%R))) lw)
            (fun w lw m => map (fun j => six_pick (fst (nth j w (0%nat, 0%R))) lw) (seq 0 m))
            (fun w => snd (nth 0 w (0%nat, 0%R)))
            (fun w m => map (fun j => snd (nth j w (0%nat, 0%R))) (seq 0 m)).
Lemma mean_duo f : mean duo_law f = mean single_law (fun a => mean single_law (fun b => f [a; b])).
Proof. unfold duo_law. rewrite mean_joint. reflexivity. Qed.
Lemma duo_prob : prob duo_law.
Proof.
  unfold prob. transitivity (mean duo_law (fun _ => 1)); [unfold mean; apply Rsum_ext; intros; lra|].
  rewrite mean_duo, (mean_fext _ _ (fun _ => 1)); [apply mean_const, single_prob|]. intros a. apply mean_const, single_prob.
Qed.
Lemma joint_pos {A} (ds : list (law A)) : (forall d xp, In d ds -> In xp d -> 0 <= snd xp) -> forall xp, In xp (joint ds) -> 0 <= snd xp.
Proof.
  induction ds as [|d ds IH]; intros H xp Hx; cbn in Hx.
  - destruct Hx as [<-|[]]. cbn. lra.
  - apply in_flat_map in Hx. destruct Hx as (ap & Ha & Hx). apply in_map_iff in Hx. destruct Hx as (lq & <- & Hl). cbn [snd].
    apply Rmult_le_pos; [apply (H d); [left; reflexivity|exact Ha]|]. apply IH; [|exact Hl]. intros e yp He. apply H. right. exact He.
Qed.
Lemma duo_pos xp : In xp duo_law -> 0 <= snd xp.
Proof. apply joint_pos. intros d yp Hd. apply repeat_spec in Hd. subst d. apply single_pos. Qed.
Lemma duo_ok : sampler_ok duo_sampler.
Proof.
  intros w. split; [|split].
  - intros k lw N. apply six_pick_ok, N.
  - intros k lw n Hn. cbn [s_cat duo_sampler]. split; [rewrite map_length, seq_length; reflexivity|].
    assert (N : n <> 0%nat -> lw <> []) by (intros H E; apply H, Hn, E).
    split; [|intros O]; apply Forall_forall; intros i Hi; apply in_map_iff in Hi; destruct Hi as (j & <- & Hj); apply in_seq in Hj;
      apply six_pick_ok; try exact O; apply N; lia.
  - intros k n. cbn. rewrite map_length, seq_length. reflexivity.
Qed.
Lemma duo_faithful : cat_faithful duo_law duo_sampler (drawn_from 0%nat 0%nat stay_pot stay_V stay_W [0; 1]%nat 1) 2.
Proof.
  intros lw H. split; intros phi; rewrite mean_duo; cbn [s_cat1 s_cat duo_sampler nth seq map repeat expect].
  - etransitivity; [apply mean_fext; intros a; apply mean_const, single_prob|].
    rewrite (single_fst (fun x => phi (six_pick x lw))). apply (six_cat lw phi H).
  - etransitivity; [apply mean_fext; intros a; apply (single_fst (fun y => phi [six_pick (fst a) lw; six_pick y lw]))|].
    rewrite (single_fst (fun x => mean six (fun y => phi [six_pick x lw; six_pick y lw]))).
    rewrite <- (six_cat lw _ H). apply mean_fext. intros x. apply (six_cat lw (fun j => phi [six_pick x lw; j]) H).
Qed.

Theorem C120_default_bound_refuted :
  exists (W : Type) (P : law W) (sm : sampler W) (pot : nat -> nat -> nat -> nat -> xr) (early : list nat) (xv x1 : list nat) (lw : list xr),
  prob P /\ (forall xp, In xp P -> 0 <= snd xp) /\ sampler_ok sm
  /\ (forall x t x' t', potential_value (pot x t x' t'))
  /\ length early = length lw
  /\ stitchable 0%nat pot 0%nat 1%nat xv x1 lw early
  /\ cat_faithful P sm (stitch_from 0%nat pot 0%nat 1%nat xv x1 lw early) 2
  (* uniform at every ratio of two densities and the inflation *)
  /\ (forall d d' e' phi psi, (d = 1 \/ d = / 2) -> (d' = 1 \/ d' = / 2) -> (e' = 1 \/ e' = / 2) ->
       let q := d / (e' * (101 / 100)) in let q' := d' / (e' * (101 / 100)) in
       mean P (fun x => phi (Rltb q (s_unif sm x))) = mean (bern (Rmin 1 q)) phi
       /\ mean P (fun x => psi (map (fun qu => Rltb (fst qu) (snd qu)) (combine [q; q'] (s_unifn sm x 2))))
          = expect [bern (Rmin 1 q); bern (Rmin 1 q')] psi)
  /\ (forall x t x' t', density (pot x t x' t') = 1 \/ density (pot x t x' t') = / 2)
  (* the right probability that both trajectories move is 1/9, that of the
     program at least (50/101)^2 *)
  /\ stitch_mean 0%nat pot 0%nat 1%nat [early] [xv; x1] lw (fun rows => both_moved (Some rows)) = 1 / 9
  /\ forall maxrej k v, (1 <= maxrej)%nat ->
     has_mean P (fun w => both_moved (stitch sm 0%nat pot [early] 0%nat [xv; x1] lw 1%nat maxrej 0 (101 / 100) k w)) v -> 2500 / 10201 <= v.
Proof.
  exists (list (nat * R)), duo_law, duo_sampler, stay_pot, [0; 1]%nat, [0; 1]%nat, [0; 1]%nat, [Fin 0; Fin 0].
  split; [exact duo_prob|]. split; [exact duo_pos|]. split; [exact duo_ok|]. split; [exact stay_ok|]. split; [reflexivity|].
  split; [exact two_stitchable|]. split; [intros lw H; apply duo_faithful, two_from, H|].
  split.
  { intros d d' e' phi psi Hd Hd' He q q'.
    assert (B : forall z g, z = 100 / 101 \/ z = 200 / 101 \/ z = 50 / 101 -> mean thr_law (fun u => g (Rltb z u)) = mean (bern (Rmin 1 z)) g).
    { intros z g Eq. rewrite mean_bern. unfold thr_law, mean. cbn. unfold Rmin, Rltb.
      destruct Eq as [->|[->| ->]]; destruct (Rle_dec 1 _); try lra;
        repeat (destruct (Rlt_dec _ _) as [?|?]; try lra). }
    assert (Eq : q = 100 / 101 \/ q = 200 / 101 \/ q = 50 / 101) by (unfold q; destruct Hd as [->| ->], He as [->| ->]; lra).
    assert (Eq' : q' = 100 / 101 \/ q' = 200 / 101 \/ q' = 50 / 101) by (unfold q'; destruct Hd' as [->| ->], He as [->| ->]; lra).
    clearbody q q'. clear d d' e' Hd Hd' He. rewrite !mean_duo. cbn [s_unif s_unifn duo_sampler nth seq map combine fst snd expect]. split.
    - etransitivity; [apply mean_fext; intros a; apply mean_const, single_prob|].
      rewrite (single_snd (fun u => phi (Rltb q u))). apply B, Eq.
    - etransitivity; [apply mean_fext; intros a; apply (single_snd (fun u => psi [Rltb q (snd a); Rltb q' u]))|].
      rewrite (single_snd (fun u => mean thr_law (fun u' => psi [Rltb q u; Rltb q' u']))).
      rewrite <- (B q _ Eq). apply mean_fext. intros u. apply (B q' (fun r => psi [Rltb q u; r]) Eq'). }
  split. { intros. rewrite stay_density. destruct (x =? x')%nat; [left|right]; reflexivity. }
  split; [exact (proj2 two_values)|].
  intros maxrej k v Hm Hv.
  (* the first candidates move and are kept *)
  set (k2 := KSplit k 3 0). set (k3 := KSplit k 3 1).
  set (pick := fun x => six_pick x [Fin 0; Fin 0]).
  assert (Ep : forall x, pick x = if (x <? 3)%nat then 0%nat else 1%nat).
  { intros x. unfold pick, six_pick. destruct (Rltb 0 0) eqn:E; [apply Rltb_true in E; lra|reflexivity]. }
  set (fs := fun w : list (nat * R) => andb (negb (fst (nth 0 w (0%nat, 0%R)) <? 3)%nat) (fst (nth 1 w (0%nat, 0%R)) <? 3)%nat).
  set (us := fun w : list (nat * R) => orb (Rltb (100 / 101) (snd (nth 0 w (0%nat, 0%R)))) (Rltb (100 / 101) (snd (nth 1 w (0%nat, 0%R))))).
  set (G := fun w : key -> list (nat * R) => if fs (w k2) then (if us (w k3) then 0 else 1) else 0).
  apply (has_mean_le duo_law duo_prob duo_pos G
    (fun w => both_moved (stitch duo_sampler 0%nat stay_pot [[0; 1]]%nat 0%nat [[0; 1]; [0; 1]]%nat [Fin 0; Fin 0] 1%nat maxrej 0 (101 / 100) k w))
    (2500 / 10201) v); [| |exact Hv].
  - intros w. unfold G.
    assert (Z : forall r, 0 <= both_moved r).
    { intros [r|]; cbn; [|lra]. repeat match goal with |- context [match ?x with _ => _ end] => destruct x end; lra. }
    destruct (fs (w k2)) eqn:Ef; [|apply Z]. destruct (us (w k3)) eqn:Eu; [apply Z|].
    apply andb_true_iff in Ef. destruct Ef as [Ef0 Ef1]. apply negb_true_iff in Ef0. apply orb_false_iff in Eu. destruct Eu as [Eu0 Eu1].
    assert (E : stitch duo_sampler 0%nat stay_pot [[0; 1]]%nat 0%nat [[0; 1]; [0; 1]]%nat [Fin 0; Fin 0] 1%nat maxrej 0 (101 / 100) k w
      = Some [[0; 1]; [1; 0]]%nat).
    { unfold stitch, fixed_lag_stitching. rewrite (at_last_last [[0; 1]]%nat []) by discriminate. cbn [last]. cbv zeta. destruct (Nat.ltb_spec 0 maxrej) as [_|]; [|lia].
      assert (EN : non_interacting stay_pot [0; 1]%nat 0%nat (nth_clamp 1 [[0; 1]; [0; 1]]%nat []) 1%nat [Fin 0; Fin 0] = [Fin 0; Fin 0]).
      { cbn. repeat f_equal; lra. }
      rewrite EN. unfold rejection_stitching. change (nth_clamp 1 [[0; 1]; [0; 1]]%nat []) with [0; 1]%nat. cbn [length].
      unfold rejection, rej_start. cbn [s_cat s_unifn duo_sampler seq map].
      change (six_pick (fst (nth 0 (w (KSplit k 3 0)) (0%nat, 0%R))) [Fin 0; Fin 0]) with (pick (fst (nth 0 (w k2) (0%nat, 0%R)))).
      change (six_pick (fst (nth 1 (w (KSplit k 3 0)) (0%nat, 0%R))) [Fin 0; Fin 0]) with (pick (fst (nth 1 (w k2) (0%nat, 0%R)))).
      rewrite !Ep, Ef0, Ef1. cbn [combine map fst snd nth].
      assert (Ed : forall x x', x <> x' -> xexp (xopp (stay_pot x 0%nat x' 1%nat)) = Fin (/ 2)).
      { intros x x' N. unfold stay_pot. destruct (Nat.eqb_spec x x') as [E|_]; [contradiction|]. cbn. f_equal. apply exp_half. }
      rewrite !Ed by discriminate. cbn [xmaxl fold_right xmax2 xltb].
      replace (Rltb (/ 2) (/ 2)) with false by (symmetry; apply Rltb_false; lra).
      replace (Rltb 0 (/ 2)) with true by (symmetry; apply Rltb_true; lra).
      cbn [xmul xquot xdiv].
      destruct (Req_EM_T (/ 2 * (101 / 100)) 0) as [?|_]; [lra|]. cbn [xltb].
      fold k3. replace (/ 2 / (/ 2 * (101 / 100))) with (100 / 101) by field. rewrite Eu0, Eu1.
      destruct maxrej as [|m]; [lia|]. reflexivity. }
    rewrite E. cbn. lra.
  - assert (D : drawn duo_law ([k2] ++ [k3]) G (fun phi =>
      mean duo_law (fun x2 => mean duo_law (fun x3 => phi (if fs x2 then (if us x3 then 0 else 1) else 0))))).
    { pose proof (drawn_bind duo_law [k2] [k3] (fun w => w k2)
        (fun x2 w => if fs x2 then (if us (w k3) then 0 else 1) else 0)
        (mean duo_law) (fun x2 phi => mean duo_law (fun x3 => phi (if fs x2 then (if us x3 then 0 else 1) else 0)))) as HH.
      apply HH; clear HH.
      - apply (drawn_key duo_law duo_prob k2 (fun x => x)).
      - intros q [<-|[]] [E|[]]; discriminate.
      - intros w'. set (x2 := w' k2). clearbody x2.
        apply (drawn_key duo_law duo_prob k3 (fun x3 => if fs x2 then (if us x3 then 0 else 1) else 0)). }
    exists ([k2] ++ [k3]).
    replace (2500 / 10201) with (mean duo_law (fun x2 => mean duo_law (fun x3 => (fun r => r) (if fs x2 then (if us x3 then 0 else 1) else 0)))).
    + apply (proj2 D (fun r => r)).
    + assert (EU : mean duo_law (fun x3 => if us x3 then 0 else 1) = (100 / 101) * (100 / 101)).
      { rewrite mean_duo. unfold us. cbn [nth].
        etransitivity; [apply mean_fext; intros a; apply (single_snd (fun u => if orb (Rltb (100 / 101) (snd a)) (Rltb (100 / 101) u) then 0 else 1))|].
        rewrite (single_snd (fun u => mean thr_law (fun u' => if orb (Rltb (100 / 101) u) (Rltb (100 / 101) u') then 0 else 1))).
        unfold thr_law, mean, Rltb. cbn. repeat (destruct (Rlt_dec _ _) as [?|?]; try lra). cbn. lra. }
      transitivity (mean duo_law (fun x2 => if fs x2 then (100 / 101) * (100 / 101) else 0)).
      * apply mean_fext. intros x2. destruct (fs x2); [exact EU|apply mean_const, duo_prob].
      * rewrite mean_duo. unfold fs. cbn [nth].
        etransitivity; [apply mean_fext; intros a; apply (single_fst (fun y => if andb (negb (fst a <? 3)%nat) (y <? 3)%nat then (100 / 101) * (100 / 101) else 0))|].
        rewrite (single_fst (fun x => mean six (fun y => if andb (negb (x <? 3)%nat) (y <? 3)%nat then (100 / 101) * (100 / 101) else 0))).
        rewrite !mean_six. cbn. field.
Qed.
Print Assumptions C120_default_bound_refuted.
