(** C114: ABC-SMC runs computed from one key, with a threshold schedule, are
    properly weighted for the ABC posterior, unless a distance equals a threshold. *)
From Coq Require Import Reals List Arith Bool Lia Lra FunctionalExtensionality.
From Verif Require Import XR Keys McmcModel McmcSpec WeightsModel WeightsSpec SmcModel SmcSpec UnbSpec UnbProofs KexpSpec KexpProofs
  ChainSpec ChainProofs SmcLawProps AbcModel AbcProofs AbcLawModel AbcLawSpec AbcLawProofs AbcLawRw.
Import ListNotations.
Open Scope R_scope.

Lemma schedule_num (l : list xr) : l <> [] -> List.Forall (fun t => t <> NaN) l -> forall j, nth j l (last l NaN) <> NaN.
Proof.
  intros Hl Hf j. rewrite Forall_forall in Hf. destruct (le_lt_dec (length l) j) as [H|H].
  - rewrite nth_overflow by exact H. apply Hf. destruct (exists_last Hl) as (a & b & ->). rewrite last_last. apply in_or_app. right. left. reflexivity.
  - apply Hf, nth_In, H.
Qed.
Lemma schedule_dec (l : list xr) : l <> [] -> List.Forall (fun t => t <> NaN) l ->
  (forall j, (S j < length l)%nat -> xleb (nth (S j) l NaN) (nth j l NaN) = true) ->
  forall j, xleb (nth (S j) l (last l NaN)) (nth j l (last l NaN)) = true.
Proof.
  intros Hl Hf Hd j. destruct (le_lt_dec (length l) (S j)) as [H|H].
  - assert (E : nth j l (last l NaN) = last l NaN).
    { destruct (exists_last Hl) as (a & b & ->). rewrite last_last. rewrite app_length in H. cbn in H.
      destruct (Nat.eq_dec j (length a)) as [->|N].
      - rewrite app_nth2, Nat.sub_diag by lia. reflexivity.
      - apply nth_overflow. rewrite app_length. cbn. lia. }
    rewrite nth_overflow by exact H. rewrite E. pose proof (schedule_num l Hl Hf (length l)) as N. rewrite nth_overflow in N by lia.
    destruct (last l NaN) as [r| | |]; cbn; try reflexivity; [|congruence]. unfold Rleb. destruct (Rle_dec r r); [reflexivity|lra].
  - rewrite !(nth_indep l (last l NaN) NaN) by lia. apply Hd, H.
Qed.

(** For every inner sampler whose law from a state meeting the threshold is a
    kernel that keeps the prior restricted to distances within the threshold:
    the expected value, over the random streams, of the estimated probability of
    meeting the [J]th threshold times the average of [f] over the surviving
    particles is the prior expected value of [f] on distances within it. *)
Theorem C114_any_sampler :
  forall (W Data : Type) (P : law W) (psamp : W -> vec) (pr : vec -> W -> xr) (lik : vec -> W -> Data) (dist : Data -> xr)
         (cat : W -> list xr -> nat -> list nat)
         (inner : (key -> W) -> xr -> (nat -> R) -> key -> abc_core (Data := Data) -> abc_core (Data := Data) * xr)
         (ikeys : key -> list key) (K : xr -> abc_core (Data := Data) -> (abc_core (Data := Data) -> R) -> R)
         (ok : abc_core (Data := Data) -> Prop) (l : list xr) (rthr : R) (dflt : apart (Data := Data)) (st : nat -> R) (n : nat) (ta : R),
  prob P -> (0 < n)%nat -> ta < 0 ->
  (forall x, categorical_ok (fun _ => cat x)) -> uniform_indices P cat n ->
  l <> [] -> List.Forall (fun t => t <> NaN) l -> (forall j, (S j < length l)%nat -> xleb (nth (S j) l NaN) (nth j l NaN) = true) ->
  (* the states the run can reach *)
  (forall c, ok c -> a_dist c <> NaN) ->
  (forall a b c, let x := psamp a in ok (ABC x (pr x b) (lik x c) (dist (lik x c)))) ->
  (forall w t k c, ok c -> within_thr t c = 1 -> ok (fst (inner w t st k c))) ->
  (* the inner sampler draws with keys made from the one it is given, moves by [K] and reports no negative mean *)
  (forall k q, In q (ikeys k) -> derived k q) ->
  (forall t k c, ok c -> within_thr t c = 1 -> reads (ikeys k) (fun w => inner w t st k c)) ->
  (forall t k c f, ok c -> within_thr t c = 1 -> mean_on P (ikeys k) (fun w => f (fst (inner w t st k c))) (K t c f)) ->
  (forall w t s k c, match snd (inner w t s k c) with Fin r => 0 <= r | NInf => False | _ => True end) ->
  (* [K] keeps the restricted prior *)
  (forall t f, In t l -> prior_mean P psamp pr lik dist (fun c => within_thr t c * K t c f) = prior_mean P psamp pr lik dist (fun c => within_thr t c * f c)) ->
  forall (k : key) (J : nat) (f : abc_core (Data := Data) -> R), (J <= length l)%nat ->
  has_mean P
    (fun w => abc_estimate rthr (firstn (S J) (abc_smc_sampled (fun k => psamp (w k)) (fun v k => pr v (w k)) (fun v k => lik v (w k)) dist
                                   (fun k => cat (w k)) (inner w) l rthr dflt ta n k st)) f)
    (prior_mean P psamp pr lik dist (fun c => within_thr (nth J l (last l NaN)) c * f c)).
Proof.
  intros W Data P psamp pr lik dist cat inner ikeys K ok l rthr dflt st n ta HP Hn Hta Hc Hui Hl Hf Hd O1 O2 O3 I1 I2 I3 I4 I5 k J f HJ.
  assert (In_l : forall j, In (nth j l (last l NaN)) l).
  { intros j. destruct (le_lt_dec (length l) j) as [H|H].
    - rewrite nth_overflow by exact H. destruct (exists_last Hl) as (a & b & ->). rewrite last_last. apply in_or_app. right. left. reflexivity.
    - apply nth_In, H. }
  pose proof (schedule_num l Hl Hf) as Nn. pose proof (schedule_dec l Hl Hf Hd) as Nd.
  destruct (abc_run_mean P HP psamp pr lik dist cat inner ikeys K ok l rthr dflt st n Hn Hc Hui Nn Nd O1 O2 I1
    (fun j => I2 _) (fun j => I3 _) (fun w j => O3 w _) (fun j g => I5 _ g (In_l j)) J k f) as [ks H].
  exists ks. refine (mean_on_ext P _ _ _ _ _ H). intros w. cbv beta. f_equal.
  rewrite (sampled_recorded psamp pr lik dist cat inner ok l rthr dflt st n Hn Hc Nn O1 O2 (fun w j => O3 w _) I4 ta w k Hta). symmetry.
  apply recorded_prefix; assumption.
Qed.
Print Assumptions C114_any_sampler.

(** RandomWalkABC with Metropolis inside, when no distance equals a threshold:
    the sums over the prior support of the recorded values and data. *)
Theorem C114_metropolis_partial :
  forall (W Data : Type) (P : law W) (unif : W -> R) (nrm : W -> nat -> R) (psamp : W -> vec) (ip : vec -> xr) (lik : vec -> W -> Data)
         (dist : Data -> xr) (cat : W -> list xr -> nat -> list nat) (supp : list vec) (l : list xr) (rthr : R)
         (dflt : apart (Data := Data)) (st : nat -> R) (steps n : nat) (ta : R),
  prob P -> (0 < n)%nat -> ta < 0 ->
  (* the prior *)
  (forall x, ip x <> NInf) -> NoDup supp -> (forall x, ~ In x supp -> density (ip x) = 0) ->
  (forall phi, mean P (fun a => phi (psamp a)) = Rsum (map (fun x => density (ip x) * phi x) supp) / Rsum (map (fun x => density (ip x)) supp)) ->
  (* the draws *)
  (forall x y, uniform_ok P unif (accept (ip x) (ip y))) -> uniform_ok P unif 0 -> symmetric_steps P nrm ->
  (forall x, categorical_ok (fun _ => cat x)) -> uniform_indices P cat n ->
  (* the schedule *)
  l <> [] -> List.Forall (fun t => t <> NaN) l -> (forall j, (S j < length l)%nat -> xleb (nth (S j) l NaN) (nth j l NaN) = true) ->
  (forall d, dist d <> NaN) -> (forall t x e, In t l -> In x supp -> dist (lik x e) <> t) ->
  forall (k : key) (J : nat) (phi : vec -> Data -> R), (J <= length l)%nat ->
  has_mean P
    (fun w => abc_estimate rthr (firstn (S J) (abc_smc_sampled (fun k => psamp (w k)) (fun v _ => ip v) (fun v k => lik v (w k)) dist
                                   (fun k => cat (w k))
                                   (rwabc_inner (fun k => nrm (w k)) (fun v _ => ip v) (fun v k => lik v (w k)) dist (fun k => unif (w k)) steps)
                                   l rthr dflt ta n k st)) (fun c => phi (a_value c) (a_data c)))
    (Rsum (map (fun x => density (ip x) * mean P (fun e => (if xleb (dist (lik x e)) (nth J l (last l NaN)) then 1 else 0) * phi x (lik x e))) supp)
     / Rsum (map (fun x => density (ip x)) supp)).
Proof.
  intros W Data P unif nrm psamp ip lik dist cat supp l rthr dflt st steps n ta HP Hn Hta HU HN Hout Hps Hu Hu0 Hsym Hc Hui Hl Hf Hd Nd Tie k J phi HJ.
  pose proof (C114_any_sampler W Data P psamp (prw ip) lik dist cat (rw_inner unif nrm ip lik dist steps) (rw_keys steps) (rw_K P nrm ip lik dist st steps)
    (rw_ok ip dist) l rthr dflt st n ta HP Hn Hta Hc Hui Hl Hf Hd) as H.
  assert (V : forall f, prior_mean P psamp (prw ip) lik dist f
    = Rsum (map (fun x => density (ip x) * mean P (fun e => f (ABC x (ip x) (lik x e) (dist (lik x e))))) supp) / Rsum (map (fun x => density (ip x)) supp))
    by (intros f; exact (start_value P HP psamp ip lik dist supp Hps f)).
  specialize (fun A1 A2 A3 A4 A5 A6 A7 A8 => H A1 A2 A3 A4 A5 A6 A7 A8 k J (fun c => phi (a_value c) (a_data c)) HJ). rewrite V in H.
  apply H; clear H.
  - intros c [E _]. rewrite E. apply Nd.
  - intros a b c. split; reflexivity.
  - intros w t k' c O _. apply (rw_keep unif nrm ip lik dist st steps w t k' c O).
  - apply rw_keys_derived.
  - intros t k' c _ _. apply rw_reads.
  - intros t k' c f O _. eapply rw_mean; eassumption.
  - intros w t s k' c. apply (rw_nn unif nrm ip lik dist steps w t s k' c).
  - intros t f Ht. eapply rw_invariant; try eassumption.
    + intros x e Hx. apply Tie; assumption.
    + rewrite Forall_forall in Hf. apply Hf, Ht.
Qed.
Print Assumptions C114_metropolis_partial.

(** In particular the product of the shares of survivors is an unbiased estimate
    of the prior probability of meeting the threshold. *)
Lemma mass_estimate {Data} rthr (chain : list (aensemble (Data := Data))) : abc_estimate rthr chain (fun _ => 1) = mass rthr chain.
Proof.
  unfold abc_estimate, alive_mean. fold (alive (last chain [])).
  destruct (Req_EM_T (alive (last chain [])) 0) as [Z|Z].
  - assert (M : mass rthr chain = 0); [|rewrite M; ring].
    destruct chain as [|E r]; [reflexivity|]. unfold mass.
    revert E Z. induction r as [|E' r IH]; intros E Z.
    + cbn [last] in Z. rewrite Z. unfold Rdiv. ring.
    + cbn [shares]. assert (Q : share rthr E E' * shares rthr E' r = 0); [|rewrite Q; ring].
      unfold share. specialize (IH E' Z). unfold Rdiv in *.
      apply Rmult_integral in IH. destruct IH as [IH|IH]; [|rewrite IH; ring].
      apply Rmult_integral in IH. destruct IH as [IH|IH]; [rewrite IH; ring|].
      destruct E' as [|p E']; [unfold alive, alive_sum; cbn; ring|].
      exfalso. apply Rinv_neq_0_compat in IH; [exact IH|]. cbn [length]. rewrite S_INR. pose proof (pos_INR (length E')). lra.
  - unfold Rdiv. rewrite Rinv_r by exact Z. ring.
Qed.

Theorem C114_mass_partial :
  forall (W Data : Type) (P : law W) (unif : W -> R) (nrm : W -> nat -> R) (psamp : W -> vec) (ip : vec -> xr) (lik : vec -> W -> Data)
         (dist : Data -> xr) (cat : W -> list xr -> nat -> list nat) (supp : list vec) (l : list xr) (rthr : R)
         (dflt : apart (Data := Data)) (st : nat -> R) (steps n : nat) (ta : R),
  prob P -> (0 < n)%nat -> ta < 0 ->
  (forall x, ip x <> NInf) -> NoDup supp -> (forall x, ~ In x supp -> density (ip x) = 0) ->
  (forall phi, mean P (fun a => phi (psamp a)) = Rsum (map (fun x => density (ip x) * phi x) supp) / Rsum (map (fun x => density (ip x)) supp)) ->
  (forall x y, uniform_ok P unif (accept (ip x) (ip y))) -> uniform_ok P unif 0 -> symmetric_steps P nrm ->
  (forall x, categorical_ok (fun _ => cat x)) -> uniform_indices P cat n ->
  l <> [] -> List.Forall (fun t => t <> NaN) l -> (forall j, (S j < length l)%nat -> xleb (nth (S j) l NaN) (nth j l NaN) = true) ->
  (forall d, dist d <> NaN) -> (forall t x e, In t l -> In x supp -> dist (lik x e) <> t) ->
  forall (k : key) (J : nat), (J <= length l)%nat ->
  has_mean P
    (fun w => mass rthr (firstn (S J) (abc_smc_sampled (fun k => psamp (w k)) (fun v _ => ip v) (fun v k => lik v (w k)) dist
                                   (fun k => cat (w k))
                                   (rwabc_inner (fun k => nrm (w k)) (fun v _ => ip v) (fun v k => lik v (w k)) dist (fun k => unif (w k)) steps)
                                   l rthr dflt ta n k st)))
    (Rsum (map (fun x => density (ip x) * mean P (fun e => if xleb (dist (lik x e)) (nth J l (last l NaN)) then 1 else 0)) supp)
     / Rsum (map (fun x => density (ip x)) supp)).
Proof.
  intros W Data P unif nrm psamp ip lik dist cat supp l rthr dflt st steps n ta HP Hn Hta HU HN Hout Hps Hu Hu0 Hsym Hc Hui Hl Hf Hd Nd Tie k J HJ.
  destruct (C114_metropolis_partial W Data P unif nrm psamp ip lik dist cat supp l rthr dflt st steps n ta HP Hn Hta HU HN Hout Hps Hu Hu0 Hsym Hc Hui Hl Hf Hd Nd Tie
    k J (fun _ _ => 1) HJ) as [ks H].
  exists ks.
  match type of H with mean_on _ _ _ ?v => match goal with |- mean_on _ _ _ ?u => replace u with v end end.
  2:{ f_equal. apply Rsum_ext. intros x _. f_equal. apply mean_fext. intros e. ring. }
  refine (mean_on_ext P _ _ _ _ _ H). intros w. apply mass_estimate.
Qed.
Print Assumptions C114_mass_partial.

(** Two coins per key; two points 0 and 1, a flat prior on them, steps of plus or
    minus one; the distance is the point itself. *)
Definition quad : law (bool * bool) := [((true, true), / 4); ((true, false), / 4); ((false, true), / 4); ((false, false), / 4)].
Lemma quad_prob : prob quad. Proof. unfold prob, quad. cbn. field. Qed.
Lemma mean_quad f : mean quad f = (f (true, true) + f (true, false) + f (false, true) + f (false, false)) / 4.
Proof. unfold mean, quad. cbn. field. Qed.
Definition q_pt (w : bool * bool) : vec := two_pt (fst w).
Definition q_unif (w : bool * bool) : R := if fst w then 0 else / 2.
Definition q_step (w : bool * bool) (_ : nat) : R := if fst w then 1 else -1.
Definition q_dist (d : R) : xr := Fin d.
Definition q_lik (v : vec) (_ : bool * bool) : R := v 0%nat.
Definition on (lw : list xr) : list nat := filter (fun i => match nth i lw NaN with Fin _ => true | _ => false end) (seq 0 (length lw)).
Definition q_cat (w : bool * bool) (lw : list xr) (n : nat) : list nat :=
  map (fun i => if (match i with O => fst w | _ => snd w end : bool) then hd 0%nat (on lw) else last (on lw) 0%nat) (seq 0 n).
Definition q_dflt : apart (Data := R) := APart (ABC (fun _ => 0) NaN 0 NaN) NaN NaN NaN NaN.
Definition supp2 : list vec := [two_pt false; two_pt true].

Lemma supp2_nodup : NoDup supp2.
Proof.
  repeat constructor; [|intros []]. intros [C|[]]. apply (f_equal (fun v => v 0%nat)) in C. cbn in C. lra.
Qed.
Lemma two_pr_in b : two_pr (two_pt b) = Fin 0.
Proof. unfold two_pr. destruct (dec _) as [_|N]; [reflexivity|]. exfalso. apply N. destruct b; cbn; auto. Qed.
Lemma two_pr_cases x : two_pr x = Fin 0 \/ two_pr x = PInf.
Proof. unfold two_pr. destruct (dec _); auto. Qed.
Lemma two_pr_out x : x 0%nat <> 0 -> x 0%nat <> 1 -> two_pr x = PInf.
Proof.
  intros H0 H1. unfold two_pr. destruct (dec _) as [[E|[E|[]]]|_]; [| |reflexivity]; exfalso; subst x; cbn in *; congruence.
Qed.
Lemma q_uniform a : a = 0 \/ a = 1 -> uniform_ok quad q_unif a.
Proof.
  intros H g. rewrite mean_quad. unfold q_unif. cbn [fst]. unfold Rltb. destruct H as [->| ->]; repeat destruct (Rlt_dec _ _); lra.
Qed.
Lemma q_accept x y : uniform_ok quad q_unif (accept (two_pr x) (two_pr y)).
Proof.
  apply q_uniform. destruct (two_pr_cases x) as [-> | ->], (two_pr_cases y) as [-> | ->]; cbn; auto.
  right. rewrite Rminus_0_r, exp_0. apply Rmin_left. lra.
Qed.
Lemma q_symmetric : symmetric_steps quad q_step.
Proof.
  intros f. rewrite !mean_quad. unfold q_step. cbn [fst].
  replace (fun _ : nat => - -1) with (fun _ : nat => 1) by (extensionality i; lra). change (-1) with (- (1)). lra.
Qed.
Lemma q_prior phi : mean quad (fun a => phi (q_pt a)) = Rsum (map (fun x => density (two_pr x) * phi x) supp2) / Rsum (map (fun x => density (two_pr x)) supp2).
Proof.
  rewrite mean_quad. unfold q_pt, supp2. cbn [fst map Rsum]. rewrite !two_pr_in. cbn [density]. rewrite Ropp_0, exp_0. field.
Qed.
Lemma on_finite lw i : In i (on lw) -> (i < length lw)%nat /\ finite (nth i lw NInf).
Proof.
  intros H. unfold on in H. apply filter_In in H. destruct H as [H1 H2]. apply in_seq in H1. split; [lia|].
  rewrite (nth_indep lw NInf NaN) by lia. destruct (nth i lw NaN) as [r| | |]; try discriminate. exists r. reflexivity.
Qed.
Lemma last_In {A} (d : A) l : l <> [] -> In (last l d) l.
Proof. intros H. destruct (exists_last H) as (a & b & ->). rewrite last_last. apply in_or_app. right. left. reflexivity. Qed.
Lemma q_cat_ok w : categorical_ok (fun _ => q_cat w).
Proof.
  intros k lw n Ln. unfold q_cat. rewrite map_length, seq_length. split; [reflexivity|].
  assert (D : forall i, In i (map (fun i => if (match i with O => fst w | _ => snd w end : bool) then hd 0%nat (on lw) else last (on lw) 0%nat) (seq 0 n)) ->
            (on lw = [] /\ i = 0%nat) \/ In i (on lw)).
  { intros i Hi. apply in_map_iff in Hi. destruct Hi as (j & <- & _). destruct (on lw) as [|a r] eqn:E; [left; split; [reflexivity|destruct (match j with O => _ | _ => _ end); reflexivity]|].
    right. destruct (match j with O => _ | _ => _ end); [left; reflexivity|]. apply last_In. discriminate. }
  split.
  - apply Forall_forall. intros i Hi. destruct (D i Hi) as [[_ ->]|H]; [|destruct (on_finite lw i H); lia].
    destruct n; [contradiction|lia].
  - intros [_ X]. apply Forall_forall. intros i Hi. destruct (D i Hi) as [[E _]|H]; [|destruct (on_finite lw i H) as [_ Fi]; exact Fi].
    exfalso. apply Exists_exists in X. destruct X as (x & Hx & [r ->]). apply (In_nth _ _ NaN) in Hx. destruct Hx as (j & Hj & Ej).
    assert (I : In j (on lw)). { unfold on. apply filter_In. split; [apply in_seq; lia|]. rewrite Ej. reflexivity. }
    rewrite E in I. contradiction.
Qed.
Lemma q_uniform_indices n : (0 < n <= 2)%nat -> uniform_indices quad q_cat n.
Proof.
  intros Hn bs Lb Hb phi. rewrite mean_quad.
  assert (C : n = 1%nat \/ n = 2%nat) by lia. destruct C as [-> | ->].
  - destruct bs as [|b [|? ?]]; try discriminate. destruct Hb as [->|[]]. unfold index_law, mean. cbn. field.
  - destruct bs as [|b [|b' [|? ?]]]; try discriminate. destruct Hb as [->|[->|[]]]; [destruct b'|destruct b]; unfold index_law, mean; cbn; field.
Qed.

(** Two particles, thresholds 2 and 1/2: the estimate of the probability of the
    last threshold and of the mass of [phi] there. *)
Example C114_example :
  let chain := fun (steps : nat) (w : key -> bool * bool) =>
    abc_smc_sampled (fun k => q_pt (w k)) (fun v _ => two_pr v) (fun v k => q_lik v (w k)) q_dist (fun k => q_cat (w k))
      (rwabc_inner (fun k => q_step (w k)) (fun v _ => two_pr v) (fun v k => q_lik v (w k)) q_dist (fun k => q_unif (w k)) steps)
      [Fin 2; Fin (/ 2)] 1 q_dflt (-1) 2 (KRoot 0) (fun _ => 1) in
  forall steps, has_mean quad (fun w => mass 1 (chain steps w)) (/ 2)
             /\ has_mean quad (fun w => mass 1 (firstn 1 (chain steps w))) 1.
Proof.
  intros chain steps.
  assert (H : forall J, (J <= 2)%nat -> has_mean quad (fun w => mass 1 (firstn (S J) (chain steps w)))
    (Rsum (map (fun x => density (two_pr x) * mean quad (fun e => if xleb (q_dist (q_lik x e)) (nth J [Fin 2; Fin (/ 2)] (Fin (/ 2))) then 1 else 0)) supp2)
     / Rsum (map (fun x => density (two_pr x)) supp2))).
  { intros J HJ. apply (C114_mass_partial (bool * bool) R quad q_unif q_step q_pt two_pr q_lik q_dist q_cat supp2 [Fin 2; Fin (/ 2)] 1 q_dflt (fun _ => 1) steps 2 (-1)).
    - exact quad_prob.
    - lia.
    - lra.
    - intros x. destruct (two_pr_cases x) as [-> | ->]; discriminate.
    - exact supp2_nodup.
    - intros x Hx. unfold two_pr. destruct (dec _) as [I|_]; [contradiction|reflexivity].
    - exact q_prior.
    - exact q_accept.
    - apply q_uniform. auto.
    - exact q_symmetric.
    - exact q_cat_ok.
    - apply q_uniform_indices. lia.
    - discriminate.
    - repeat constructor; discriminate.
    - intros [|j] Hj; [|cbn in Hj; lia]. cbn. unfold Rleb. destruct (Rle_dec _ _); [reflexivity|lra].
    - intros d. discriminate.
    - intros t x e [<-|[<-|[]]] [<-|[<-|[]]]; cbn; intros C; injection C; lra.
    - cbn. lia. }
  assert (Len : forall w, firstn 3 (chain steps w) = chain steps w).
  { intros w. apply firstn_all2. unfold chain, abc_smc_sampled, a_run.
    match goal with |- context [LoopModel.run_loop ?t ?u ?i ?m] => destruct (LoopProofs.run_loop_correct t u i m) as (j & (Hj & _) & ->) end.
    rewrite map_length, seq_length. cbn in Hj. lia. }
  pose proof (H 2%nat ltac:(lia)) as H2. pose proof (H 0%nat ltac:(lia)) as H0. clear H.
  unfold supp2 in H2, H0. cbn [map Rsum nth] in H2, H0. rewrite !two_pr_in in H2, H0. cbn [density] in H2, H0. rewrite Ropp_0, exp_0 in H2, H0.
  rewrite !mean_quad in H2, H0. unfold q_lik, q_dist, two_pt in H2, H0. cbn [xleb] in H2, H0.
  unfold Rleb in H2, H0. repeat destruct (Rle_dec _ _); try lra.
  split.
  - destruct H2 as [ks H2]. exists ks. match type of H2 with mean_on _ _ _ ?v => replace (/ 2) with v by field end.
    refine (mean_on_ext quad _ _ _ _ _ H2). intros w. cbv beta. rewrite Len. reflexivity.
  - match type of H0 with has_mean _ _ ?v => replace v with 1 in H0 by field end. exact H0.
Qed.

Definition pt_core (x : vec) : abc_core (Data := R) := ABC x (two_pr x) (x 0%nat) (Fin (x 0%nat)).
Lemma tie_step x f : rw_K quad q_step two_pr q_lik q_dist (fun _ => 1) 1 (Fin 1) (pt_core x) f
  = (let up := fun i => x i + 1 in let dn := fun i => x i + -1 in
     let a y := accept (two_pr x) (two_pr y) * (if Rltb (y 0%nat) 1 then 1 else 0) in
     (a up * f (pt_core up) + (1 - a up) * f (pt_core x) + a dn * f (pt_core dn) + (1 - a dn) * f (pt_core x)) / 2).
Proof.
  unfold rw_K, abc_kernel. cbn [chain_mean nth]. unfold walk_kernel. cbv zeta.
  rewrite (mean_fext quad _ (fun z => let y := (fun i => x i + sqrt 1 * q_step z i) : vec in
    (accept (two_pr x) (two_pr y) * (if Rltb (y 0%nat) 1 then 1 else 0)) * f (pt_core y)
    + (1 - accept (two_pr x) (two_pr y) * (if Rltb (y 0%nat) 1 then 1 else 0)) * f (pt_core x))).
  - rewrite mean_quad. cbv zeta. unfold q_step. cbn [fst]. rewrite sqrt_1.
    replace (fun i : nat => x i + 1 * 1) with (fun i : nat => x i + 1) by (extensionality i; ring).
    replace (fun i : nat => x i + 1 * -1) with (fun i : nat => x i + -1) by (extensionality i; ring).
    replace (x 0%nat + 1 * 1) with (x 0%nat + 1) by ring. replace (x 0%nat + 1 * -1) with (x 0%nat + -1) by ring. field.
  - intros z. apply (mean_const (pair_law quad quad) _ (pair_prob quad quad quad_prob quad_prob)).
Qed.

(** Particles whose distance equals the threshold survive (smc.py 168-173), but
    the inner sampler accepts no proposal at that distance (abc/mcmc.py 56-62).
    One particle, threshold 1: after one update the mean of the point is 1/4,
    though both points meet the threshold. *)
Theorem C114_tie_refuted :
  exists (l : list xr) (steps n : nat) (J : nat),
  (forall j, (S j < length l)%nat -> xleb (nth (S j) l NaN) (nth j l NaN) = true) /\ (J <= length l)%nat /\
  (forall x e, In x supp2 -> xleb (q_dist (q_lik x e)) (nth J l (last l NaN)) = true) /\
  let chain := fun (w : key -> bool * bool) =>
    abc_smc_sampled (fun k => q_pt (w k)) (fun v _ => two_pr v) (fun v k => q_lik v (w k)) q_dist (fun k => q_cat (w k))
      (rwabc_inner (fun k => q_step (w k)) (fun v _ => two_pr v) (fun v k => q_lik v (w k)) q_dist (fun k => q_unif (w k)) steps)
      l 1 q_dflt (-1) n (KRoot 0) (fun _ => 1) in
  let target := Rsum (map (fun x => density (two_pr x) * x 0%nat) supp2) / Rsum (map (fun x => density (two_pr x)) supp2) in
  target = / 2 /\
  has_mean quad (fun w => abc_estimate 1 (firstn (S J) (chain w)) (fun c => a_value c 0%nat)) (/ 4) /\
  ~ has_mean quad (fun w => abc_estimate 1 (firstn (S J) (chain w)) (fun c => a_value c 0%nat)) target.
Proof.
  exists [Fin 1], 1%nat, 1%nat, 1%nat. split; [intros j Hj; cbn in Hj; lia|]. split; [cbn; lia|]. split.
  { intros x e [<-|[<-|[]]]; cbn; unfold Rleb; destruct (Rle_dec _ _); try reflexivity; lra. }
  intros chain target.
  assert (Tv : target = / 2).
  { unfold target, supp2. cbn [map Rsum]. rewrite !two_pr_in. cbn [density]. rewrite Ropp_0, exp_0. unfold two_pt. field. }
  split; [exact Tv|].
  assert (Hm : has_mean quad (fun w => abc_estimate 1 (firstn 2 (chain w)) (fun c => a_value c 0%nat)) (/ 4)).
  2:{ split; [exact Hm|]. intros H. rewrite Tv in H. pose proof (has_mean_unique quad quad_prob _ _ _ Hm H). lra. }
  assert (Nn : forall j, nth j [Fin 1] (last [Fin 1] NaN) = Fin 1) by (intros [|[|j]]; reflexivity).
  assert (HU : forall v, two_pr v <> NInf) by (intros v; destruct (two_pr_cases v) as [-> | ->]; discriminate).
  assert (Kp : forall w t k c, rw_ok two_pr q_dist c -> rw_ok two_pr q_dist (fst (rw_inner q_unif q_step two_pr q_lik q_dist 1 w t (fun _ => 1) k c)))
    by (intros w t k c; apply (rw_keep q_unif q_step two_pr q_lik q_dist (fun _ => 1) 1 w t k c)).
  destruct (abc_run_value quad quad_prob q_pt (prw two_pr) q_lik q_dist q_cat (rw_inner q_unif q_step two_pr q_lik q_dist 1)
     (rw_keys 1) (rw_K quad q_step two_pr q_lik q_dist (fun _ => 1) 1) (rw_ok two_pr q_dist) [Fin 1] 1 q_dflt (fun _ => 1) 1) with (J := 1%nat) (k := KRoot 0) (f := fun c : abc_core (Data := R) => a_value c 0%nat) as [ks V].
  { lia. }
  { exact q_cat_ok. }
  { apply q_uniform_indices. lia. }
  { intros j. rewrite Nn. discriminate. }
  { intros j. rewrite !Nn. cbn. unfold Rleb. destruct (Rle_dec _ _); [reflexivity|lra]. }
  { intros c [E _]. rewrite E. discriminate. }
  { intros a b c. split; reflexivity. }
  { apply rw_keys_derived. }
  { intros j k c _ _. apply rw_reads. }
  { intros j k c f O _. eapply rw_mean; try eassumption; [exact quad_prob|exact q_accept|apply q_uniform; auto]. }
  { intros w j k c O _. apply Kp, O. }
  exists ks. match type of V with mean_on _ _ _ ?v => replace (/ 4) with v end.
  - assert (Rc : forall w, chain w = recorded q_pt (prw two_pr) q_lik q_dist q_cat (rw_inner q_unif q_step two_pr q_lik q_dist 1) [Fin 1] 1 q_dflt (fun _ => 1) 1 w (KRoot 0) 1).
    { intros w. refine (sampled_recorded q_pt (prw two_pr) q_lik q_dist q_cat (rw_inner q_unif q_step two_pr q_lik q_dist 1)
        (rw_ok two_pr q_dist) [Fin 1] 1 q_dflt (fun _ => 1) 1 _ q_cat_ok _ _ _ _ _ (-1) w (KRoot 0) _).
      - lia.
      - intros j. rewrite Nn. discriminate.
      - intros c [E _]. rewrite E. discriminate.
      - intros a b c. split; reflexivity.
      - intros w' j k c O _. apply Kp, O.
      - intros w' t s k c. apply (rw_nn q_unif q_step two_pr q_lik q_dist 1 w' t s k c).
      - lra. }
    clear - V Rc. refine (mean_on_ext quad _ _ _ _ _ V). intros w. cbv beta. rewrite Rc. reflexivity.
  - rewrite (start_value quad quad_prob q_pt two_pr q_lik q_dist supp2 q_prior). unfold supp2. cbn [map Rsum Qs]. unfold Q, cut. rewrite !Nn.
    assert (E : forall b, mean quad (fun e => within_thr (Fin 1) (ABC (two_pt b) (two_pr (two_pt b)) (q_lik (two_pt b) e) (q_dist (q_lik (two_pt b) e)))
        * rw_K quad q_step two_pr q_lik q_dist (fun _ => 1) 1 (Fin 1) (ABC (two_pt b) (two_pr (two_pt b)) (q_lik (two_pt b) e) (q_dist (q_lik (two_pt b) e)))
           (fun c => within_thr (Fin 1) c * a_value c 0%nat)) = if b then / 2 else 0).
    { intros b. transitivity (within_thr (Fin 1) (pt_core (two_pt b)) * rw_K quad q_step two_pr q_lik q_dist (fun _ => 1) 1 (Fin 1) (pt_core (two_pt b)) (fun c => within_thr (Fin 1) c * a_value c 0%nat)).
      - apply (mean_const quad _ quad_prob).
      - rewrite tie_step. cbv zeta. cbn [pt_core a_value a_dist]. unfold within_thr. cbn [a_dist pt_core xleb].
        rewrite two_pr_in. unfold two_pt at 1 3. destruct b.
        + assert (Z : (fun i => two_pt true i + -1) = two_pt false) by (unfold two_pt; extensionality i; lra). rewrite Z, two_pr_in.
          rewrite (two_pr_out (fun i => two_pt true i + 1)) by (unfold two_pt; lra).
          cbn [accept]. replace (exp (0 - 0)) with 1 by (rewrite Rminus_0_r, exp_0; reflexivity). rewrite (Rmin_left 1 1) by lra.
          unfold two_pt, Rltb, Rleb. repeat destruct (Rlt_dec _ _); repeat destruct (Rle_dec _ _); try lra.
        + rewrite (two_pr_out (fun i => two_pt false i + -1)) by (unfold two_pt; lra).
          unfold two_pt, Rltb, Rleb. repeat destruct (Rlt_dec _ _); repeat destruct (Rle_dec _ _); cbn [accept]; try lra. }
    rewrite (E false), (E true), !two_pr_in. cbn [density]. rewrite Ropp_0, exp_0. field.
Qed.
Print Assumptions C114_tie_refuted.
