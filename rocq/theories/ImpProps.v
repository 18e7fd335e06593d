(** C113: what the weighted samples of importance-sampling ABC estimate. *)
From Coq Require Import Reals List Bool Arith Lia Lra.
From Verif Require Import XR Keys LoopModel LoopProofs WeightsSpec McmcSpec McmcModel AbcModel UnbSpec UnbProofs
  KexpSpec KexpProofs RejLawProofs BackLawProofs BackLawProps ImpModel ImpSpec ImpProofs.
Import ListNotations.
Open Scope R_scope.

(** The run of an importance sampler on the stream [w]: the samplers are
    functions of the value at the key they are given. *)
Definition imp_stream {Data W : Type} (ip : vec -> R) (dist : Data -> xr) (psamp qsamp : W -> vec) (lsamp : vec -> W -> Data)
  (lw : abc_core (Data := Data) -> xr) (n : nat) (k : key) (w : key -> W) : list (isample (Data := Data)) :=
  imp_run (fun k => psamp (w k)) (fun x _ => Fin (ip x)) (fun v k => lsamp v (w k)) dist (fun k => qsamp (w k)) lw n k.
(** Likewise VanillaABC. *)
Definition vanilla_stream {Data W : Type} (ip : vec -> R) (dist : Data -> xr) (psamp : W -> vec) (lsamp : vec -> W -> Data)
  (thr : xr) (n : nat) (k : key) (w : key -> W) : list (isample (Data := Data)) :=
  vanilla_run (fun k => psamp (w k)) (fun x _ => Fin (ip x)) (fun v k => lsamp v (w k)) dist thr n k.

Lemma vanilla_is_imp {Data W : Type} ip (dist : Data -> xr) (psamp : W -> vec) lsamp thr n k w :
  vanilla_stream ip dist psamp lsamp thr n k w = imp_stream ip dist psamp psamp lsamp (vanilla_log_weight thr) n k w.
Proof. reflexivity. Qed.

(** The samples of a run are independent: the first from prior and simulator, the
    others from proposal and simulator. *)
Theorem C113_independent :
  forall (Data W : Type) (P : law W) (supp : list vec) (ip : vec -> R) (lk : vec -> law Data) (dist : Data -> xr)
         (psamp qsamp : W -> vec) (lsamp : vec -> W -> Data) (mu q : vec -> R) lw n k,
  prob P -> (1 <= n)%nat ->
  (forall f, mean P (fun z => f (psamp z)) = Rsum (map (fun x => mu x * f x) supp)) ->
  (forall f, mean P (fun z => f (qsamp z)) = Rsum (map (fun x => q x * f x) supp)) ->
  (forall x f, mean P (fun z => f (lsamp x z)) = mean (lk x) f) ->
  has_law P (fun w => map (@i_core Data) (imp_stream ip dist psamp qsamp lsamp lw n k w))
    (expect (simulation supp ip lk dist mu :: repeat (simulation supp ip lk dist q) (n - 1))).
Proof.
  intros Data W P supp ip lk dist psamp qsamp lsamp mu q lw n k HP Hn Hp Hq Hl. eapply drawn_has_law.
  apply (cores_drawn P HP supp ip lk dist psamp qsamp lsamp mu q Hp Hq Hl lw n k Hn).
Qed.
Print Assumptions C113_independent.

Lemma has_mean_scale {W} (P : law W) F v c : has_mean P F v -> has_mean P (fun w => F w * c) (v * c).
Proof.
  intros [ks H]. exists ks. intros ks' w N I. rewrite <- (H ks' w N I). clear. revert w.
  induction ks' as [|k r IH]; intros w; [reflexivity|]. cbn [kexp].
  rewrite (mean_fext _ _ (fun x => c * kexp P r F (upd w k x))) by (intros; rewrite IH; ring).
  rewrite mean_scal. ring.
Qed.
Lemma has_mean_to {W} (P : law W) F G v v' : (forall w, F w = G w) -> v = v' -> has_mean P F v -> has_mean P G v'.
Proof. intros E <- [ks H]. exists ks. eapply mean_on_ext; [|exact H]. exact E. Qed.

(** the expected weight times [phi] of a sample from prior and simulator is the
    ABC posterior expectation; with importance weights likewise from a proposal *)
Lemma vanilla_one {Data} supp ip (lk : vec -> law Data) dist thr phi :
  mean (simulation supp ip lk dist (fun x => exp (- ip x))) (fun c => weight (vanilla_log_weight thr c) * phi (a_value c))
  = abc_posterior supp ip lk dist thr phi.
Proof.
  rewrite mean_simulation. unfold abc_posterior, within. apply Rsum_ext. intros x _. rewrite Rmult_assoc. f_equal.
  rewrite (mean_fext _ _ (fun d => phi x * (if xltb (dist d) thr then 1 else 0))); [rewrite mean_scal; ring|].
  intros d. unfold vanilla_log_weight. cbn [a_dist a_value]. destruct (xltb _ thr); cbn; rewrite ?exp_0; ring.
Qed.
Lemma imp_one {Data} supp ip (lk : vec -> law Data) dist jp thr phi :
  mean (simulation supp ip lk dist (fun x => exp (- jp x))) (fun c => weight (imp_log_weight (fun x => Fin (jp x)) thr c) * phi (a_value c))
  = abc_posterior supp ip lk dist thr phi.
Proof.
  rewrite mean_simulation. unfold abc_posterior, within. apply Rsum_ext. intros x _.
  rewrite (mean_fext _ _ (fun d => (exp (- ip x + jp x) * phi x) * (if xltb (dist d) thr then 1 else 0))).
  - rewrite mean_scal, exp_plus, !exp_Ropp. pose proof (exp_pos (jp x)). pose proof (exp_pos (ip x)). field. lra.
  - intros d. unfold imp_log_weight. cbn [a_dist a_value a_prior]. destruct (xltb _ thr); cbn; ring.
Qed.

(** Rejection ABC: for every number of samples. *)
Theorem C113_vanilla :
  forall (Data W : Type) (P : law W) (supp : list vec) (ip : vec -> R) (lk : vec -> law Data) (dist : Data -> xr)
         (psamp : W -> vec) (lsamp : vec -> W -> Data) thr n k phi,
  prob P -> (forall x, prob (lk x)) -> (1 <= n)%nat ->
  (forall f, mean P (fun z => f (psamp z)) = Rsum (map (fun x => exp (- ip x) * f x) supp)) ->
  (forall x f, mean P (fun z => f (lsamp x z)) = mean (lk x) f) ->
  has_mean P (fun w => weighted_average phi (vanilla_stream ip dist psamp lsamp thr n k w)) (abc_posterior supp ip lk dist thr phi).
Proof.
  intros Data W P supp ip lk dist psamp lsamp thr n k phi HP Hlk Hn Hp Hl.
  assert (H1 : Rsum (map (fun x => exp (- ip x)) supp) = 1).
  { rewrite (Rsum_ext _ (fun x => exp (- ip x) * 1)) by (intros; lra). transitivity (mean P (fun _ => 1)); [symmetry; apply (Hp (fun _ => 1))|apply mean_const, HP]. }
  pose proof (run_sum P HP supp ip lk dist psamp psamp lsamp _ _ Hp Hp Hl Hlk (vanilla_log_weight thr) n k (fun c => phi (a_value c)) Hn H1 H1) as D.
  cbv beta in D. rewrite vanilla_one in D. apply (has_mean_scale _ _ _ (/ INR n)) in D. eapply has_mean_to; [| |exact D].
  - intros w. unfold weighted_average. rewrite vanilla_is_imp. unfold imp_stream. cbv beta.
    rewrite !run_cores by exact Hn. rewrite map_length. cbn [length].
    assert (L : forall m k, length (later (fun x (_ : key) => Fin (ip x)) (fun v k => lsamp v (w k)) dist (fun k => psamp (w k)) k m) = m).
    { induction m as [|m IH]; intros kk; cbn; [reflexivity|]. rewrite IH. reflexivity. }
    rewrite L. replace (S (n - 1)) with n by lia. reflexivity.
  - assert (0 < INR n) by (apply lt_0_INR; lia). rewrite minus_INR by exact Hn. cbn [INR]. field. lra.
Qed.
Print Assumptions C113_vanilla.

(** Any proposal: the samples after the first. *)
Theorem C113_after_first_partial :
  forall (Data W : Type) (P : law W) (supp : list vec) (ip jp : vec -> R) (lk : vec -> law Data) (dist : Data -> xr)
         (psamp qsamp : W -> vec) (lsamp : vec -> W -> Data) thr n k phi,
  prob P -> (forall x, prob (lk x)) -> (2 <= n)%nat ->
  (forall f, mean P (fun z => f (psamp z)) = Rsum (map (fun x => exp (- ip x) * f x) supp)) ->
  (forall f, mean P (fun z => f (qsamp z)) = Rsum (map (fun x => exp (- jp x) * f x) supp)) ->
  (forall x f, mean P (fun z => f (lsamp x z)) = mean (lk x) f) ->
  has_mean P (fun w => weighted_average phi (List.tl (imp_stream ip dist psamp qsamp lsamp (imp_log_weight (fun x => Fin (jp x)) thr) n k w)))
    (abc_posterior supp ip lk dist thr phi).
Proof.
  intros Data W P supp ip jp lk dist psamp qsamp lsamp thr n k phi HP Hlk Hn Hp Hq Hl.
  assert (H1 : Rsum (map (fun x => exp (- jp x)) supp) = 1).
  { rewrite (Rsum_ext _ (fun x => exp (- jp x) * 1)) by (intros; lra). transitivity (mean P (fun _ => 1)); [symmetry; apply (Hq (fun _ => 1))|apply mean_const, HP]. }
  set (lw := imp_log_weight (fun x => Fin (jp x)) thr).
  set (g := fun c : abc_core (Data := Data) => weight (lw c) * phi (a_value c)).
  set (k0 := KSplit (KSplit (KSplit k 2 0) 2 0) 2 0).
  destruct (later_drawn P HP supp ip lk dist qsamp lsamp _ Hq Hl (n - 1) k0) as [_ D].
  specialize (D (fun l => Rsum (map g l))). cbv beta in D.
  rewrite expect_sum in D.
  2:{ apply Forall_forall. intros d Hd. apply repeat_spec in Hd. subst d. apply sim_prob; assumption. }
  rewrite map_repeat in D. unfold g, lw in D. rewrite imp_one in D. fold lw in D. fold g in D.
  assert (E : forall a m, Rsum (repeat a m) = INR m * a).
  { intros a m. induction m as [|m IH]; [cbn; lra|]. cbn [repeat Rsum]. rewrite IH, S_INR. lra. }
  rewrite E in D.
  assert (D' : has_mean P (fun w => Rsum (map g (later (fun x (_ : key) => Fin (ip x)) (fun v k => lsamp v (w k)) dist (fun k => qsamp (w k)) k0 (n - 1))))
    (INR (n - 1) * abc_posterior supp ip lk dist thr phi)) by (eexists; exact D).
  apply (has_mean_scale _ _ _ (/ INR (n - 1))) in D'. eapply has_mean_to; [| |exact D'].
  - intros w. unfold weighted_average, imp_stream. rewrite !run_cores by lia. cbn [map List.tl]. rewrite map_length, map_map.
    assert (L : forall m k, length (later (fun x (_ : key) => Fin (ip x)) (fun v k => lsamp v (w k)) dist (fun k => qsamp (w k)) k m) = m).
    { induction m as [|m IH]; intros kk; cbn; [reflexivity|]. rewrite IH. reflexivity. }
    rewrite L. reflexivity.
  - assert (0 < INR (n - 1)) by (apply lt_0_INR; lia). field. lra.
Qed.
Print Assumptions C113_after_first_partial.

(** * Examples *)
Definition two_points : list vec := [fun _ => 0; fun _ => 1].
Definition low (v : vec) : bool := Rltb (v 0%nat) (/ 2).
Definition third (z : nat) : vec := if (z <? 2)%nat then fun _ => 0 else fun _ => 1.
Definition half (z : nat) : vec := if (z <? 3)%nat then fun _ => 0 else fun _ => 1.
Definition third_pot (v : vec) : R := if low v then ln 3 else ln (3 / 2).
Lemma low_0 : low (fun _ => 0) = true. Proof. apply Rltb_true. lra. Qed.
Lemma low_1 : low (fun _ => 1) = false. Proof. apply Rltb_false. lra. Qed.
Lemma third_exp v : exp (- third_pot v) = if low v then / 3 else 2 / 3.
Proof. unfold third_pot. destruct (low v); rewrite exp_Ropp, exp_ln by lra; field. Qed.
Lemma third_law f : mean six (fun z => f (third z)) = Rsum (map (fun x => exp (- third_pot x) * f x) two_points).
Proof. rewrite mean_six. unfold two_points, third. cbn [map Rsum]. rewrite !third_exp, low_0, low_1. cbn. field. Qed.
Lemma half_law f : mean six (fun z => f (half z)) = Rsum (map (fun x => exp (- ln 2) * f x) two_points).
Proof. rewrite mean_six. unfold two_points, half. cbn [map Rsum]. rewrite exp_Ropp, exp_ln by lra. cbn. field. Qed.

(** the datum 0 (no distance) with probability 1/2 or 5/6 *)
Definition coin_data (v : vec) (z : nat) : bool := if low v then (z <? 3)%nat else (z <? 5)%nat.
Definition coin_dist (b : bool) : xr := if b then Fin 0 else Fin 1.
Example C113_example : forall n k, (1 <= n)%nat ->
  has_mean six (fun w => weighted_average (fun _ => 1) (vanilla_stream third_pot coin_dist third coin_data (Fin (/ 2)) n k w)) (13 / 18)
  /\ has_mean six (fun w => weighted_average (fun v => v 0%nat) (vanilla_stream third_pot coin_dist third coin_data (Fin (/ 2)) n k w)) (5 / 9).
Proof.
  intros n k Hn.
  assert (D : forall phi, has_mean six (fun w => weighted_average phi (vanilla_stream third_pot coin_dist third coin_data (Fin (/ 2)) n k w))
    (abc_posterior two_points third_pot (fun x => map (fun ip => (coin_data x (fst ip), snd ip)) six) coin_dist (Fin (/ 2)) phi)).
  { intros phi. apply C113_vanilla; [apply six_prob1| |exact Hn|apply third_law|].
    - intros x. unfold prob. rewrite map_map. cbn [snd]. exact six_prob1.
    - intros x f. unfold mean. rewrite map_map. reflexivity. }
  assert (X1 : xltb (Fin 0) (Fin (/ 2)) = true) by (apply Rltb_true; lra).
  assert (X2 : xltb (Fin 1) (Fin (/ 2)) = false) by (apply Rltb_false; lra).
  assert (V : forall phi, abc_posterior two_points third_pot (fun x => map (fun ip => (coin_data x (fst ip), snd ip)) six) coin_dist (Fin (/ 2)) phi
    = / 6 * phi (fun _ => 0) + 5 / 9 * phi (fun _ => 1)).
  { intros phi. unfold abc_posterior, within, two_points. cbn [map Rsum]. rewrite !third_exp, low_0, low_1.
    unfold coin_data. rewrite low_0, low_1. unfold mean, six. cbn [map seq fst snd Nat.ltb Nat.leb coin_dist Rsum]. rewrite X1, X2. field. }
  split.
  - eapply has_mean_to; [reflexivity| |apply (D (fun _ => 1))]. rewrite V. field.
  - eapply has_mean_to; [reflexivity| |apply (D (fun v => v 0%nat))]. rewrite V. field.
Qed.

(** The first value of a run comes from the prior but is weighted as if it came
    from the proposal: for every number of samples the expected weight is not the
    ABC normalising constant. *)
Theorem C113_first_sample_refuted :
  exists (Data W : Type) (P : law W) (supp : list vec) (ip jp : vec -> R) (lk : vec -> law Data) (dist : Data -> xr)
         (psamp qsamp : W -> vec) (lsamp : vec -> W -> Data) thr,
  prob P /\ (forall x, prob (lk x))
  /\ (forall f, mean P (fun z => f (psamp z)) = Rsum (map (fun x => exp (- ip x) * f x) supp))
  /\ (forall f, mean P (fun z => f (qsamp z)) = Rsum (map (fun x => exp (- jp x) * f x) supp))
  /\ (forall x f, mean P (fun z => f (lsamp x z)) = mean (lk x) f)
  /\ forall n k, (1 <= n)%nat ->
     has_mean P (fun w => weighted_average (fun _ => 1) (imp_stream ip dist psamp qsamp lsamp (imp_log_weight (fun x => Fin (jp x)) thr) n k w))
       (1 + / (9 * INR n))
     /\ abc_posterior supp ip lk dist thr (fun _ => 1) = 1 /\ 1 + / (9 * INR n) <> 1.
Proof.
  exists unit, nat, six, two_points, third_pot, (fun _ => ln 2), (fun _ => [(tt, 1)]), (fun _ => Fin 0), third, half, (fun _ _ => tt), PInf.
  assert (Hl : forall (x : vec) (f : unit -> R), mean six (fun z => f tt) = mean [(tt, 1)] f).
  { intros x f. rewrite mean_const by exact six_prob1. unfold mean. cbn. ring. }
  assert (Pl : prob [(tt, 1)]) by (unfold prob; cbn; lra).
  split; [exact six_prob1|]. split; [intros _; exact Pl|]. split; [exact third_law|]. split; [exact half_law|]. split; [exact Hl|].
  intros n k Hn. assert (N0 : 0 < INR n) by (apply lt_0_INR; lia).
  assert (A : abc_posterior two_points third_pot (fun _ => [(tt, 1)]) (fun _ => Fin 0) PInf (fun _ => 1) = 1).
  { unfold abc_posterior, within, two_points, mean. cbn [map Rsum fst snd xltb]. rewrite !third_exp, low_0, low_1. cbn. field. }
  split; [|split; [exact A|]].
  - assert (H1 : Rsum (map (fun x => exp (- third_pot x)) two_points) = 1).
    { unfold two_points. cbn [map Rsum]. rewrite !third_exp, low_0, low_1. field. }
    assert (H2 : Rsum (map (fun _ => exp (- ln 2)) two_points) = 1).
    { unfold two_points. cbn [map Rsum]. rewrite exp_Ropp, exp_ln by lra. field. }
    pose proof (run_sum six six_prob1 two_points third_pot (fun _ => [(tt, 1)]) (fun _ => Fin 0) third half (fun _ _ => tt) _ _ third_law half_law Hl (fun _ => Pl)
      (imp_log_weight (fun _ => Fin (ln 2)) PInf) n k (fun _ => 1) Hn H1 H2) as D. cbv beta in D.
    pose proof (imp_one two_points third_pot (fun _ => [(tt, 1)]) (fun _ => Fin 0) (fun _ => ln 2) PInf (fun _ => 1)) as O. cbv beta in O. rewrite A in O. rewrite O in D.
    apply (has_mean_scale _ _ _ (/ INR n)) in D. eapply has_mean_to; [| |exact D].
    + intros w. unfold weighted_average, imp_stream. cbv beta. rewrite !run_cores by exact Hn. rewrite map_length. cbn [length].
      assert (L : forall m k, length (later (fun x (_ : key) => Fin (third_pot x)) (fun v k => tt) (fun _ => Fin 0) (fun k => half (w k)) k m) = m).
      { induction m as [|m IH]; intros kk; cbn; [reflexivity|]. rewrite IH. reflexivity. }
      rewrite L. replace (S (n - 1)) with n by lia. reflexivity.
    + rewrite mean_simulation. unfold mean, two_points, imp_log_weight. cbn [map Rsum fst snd a_dist a_prior a_value xltb xopp xadd weight].
      rewrite !exp_plus, !third_exp, low_0, low_1, exp_ln by lra. rewrite minus_INR by exact Hn. cbn [INR]. field. lra.
  - assert (0 < / (9 * INR n)) by (apply Rinv_0_lt_compat; lra). lra.
Qed.
Print Assumptions C113_first_sample_refuted.

(** The samples after the first, in the same setting. *)
Example C113_after_first_example : forall n k, (2 <= n)%nat ->
  has_mean six (fun w => weighted_average (fun v => v 0%nat)
    (List.tl (imp_stream third_pot (fun _ : unit => Fin 0) third half (fun _ _ => tt) (imp_log_weight (fun _ => Fin (ln 2)) PInf) n k w))) (2 / 3).
Proof.
  intros n k Hn. eapply has_mean_to; [reflexivity| |apply (C113_after_first_partial unit nat six two_points third_pot (fun _ => ln 2) (fun _ => [(tt, 1)])
    (fun _ => Fin 0) third half (fun _ _ => tt) PInf n k (fun v => v 0%nat) six_prob1)].
  - unfold abc_posterior, within, two_points, mean. cbn [map Rsum fst snd xltb]. rewrite !third_exp, low_0, low_1. cbn. field.
  - intros _. unfold prob. cbn. lra.
  - exact Hn.
  - exact third_law.
  - exact half_law.
  - intros x f. rewrite mean_const by exact six_prob1. unfold mean. cbn. ring.
Qed.
