(** Lemmas for C127. *)
From Coq Require Import Reals List Arith Bool Lra Lia FunctionalExtensionality.
From Verif Require Import XR Keys LoopModel LoopSpec McmcModel WeightsModel WeightsSpec SmcModel SmcSpec AbcModel AbcSpec AbcProofs AbcRun
  AbcStepModel AbcStepSpec.
Import ListNotations.
Open Scope R_scope.

Lemma rsum_ext {A} (f g : A -> R) l : (forall x, In x l -> f x = g x) -> rsum (map f l) = rsum (map g l).
Proof. intros H. f_equal. apply map_ext_in. exact H. Qed.
Lemma rsum_lin {A} (f g : A -> R) a b l : rsum (map (fun x => a * f x + b * g x) l) = a * rsum (map f l) + b * rsum (map g l).
Proof. induction l as [|x l IH]; cbn [map rsum fold_right]; [unfold rsum; cbn; ring|]. unfold rsum in *. rewrite IH. ring. Qed.
Lemma rsum_const {A} c (l : list A) : rsum (map (fun _ => c) l) = INR (length l) * c.
Proof.
  induction l as [|x l IH]; [unfold rsum; cbn; ring|]. cbn [map length]. rewrite S_INR. unfold rsum in *.
  cbn [fold_right]. rewrite IH. ring.
Qed.
Lemma rsum_nonneg {A} (f : A -> R) l : (forall x, In x l -> 0 <= f x) -> 0 <= rsum (map f l).
Proof.
  induction l as [|x l IH]; intros H; [unfold rsum; cbn; lra|]. unfold rsum in *. cbn [map fold_right].
  pose proof (H x (or_introl eq_refl)). specialize (IH (fun y Hy => H y (or_intror Hy))). lra.
Qed.
Lemma rsum_pos {A} (f : A -> R) l x : (forall x, In x l -> 0 <= f x) -> In x l -> 0 < f x -> 0 < rsum (map f l).
Proof.
  induction l as [|y l IH]; intros H Hx Hp; [destruct Hx|]. unfold rsum in *. cbn [map fold_right].
  pose proof (H y (or_introl eq_refl)).
  pose proof (rsum_nonneg f l (fun z Hz => H z (or_intror Hz))) as N. unfold rsum in N.
  destruct Hx as [->|Hx]; [lra|]. specialize (IH (fun z Hz => H z (or_intror Hz)) Hx Hp). lra.
Qed.

Lemma pairs_squares l : rsum (map (fun x => rsum (map (fun y => (x - y) ^ 2) l)) l)
  = 2 * INR (length l) * rsum (map (fun x => x ^ 2) l) - 2 * (rsum l) ^ 2.
Proof.
  assert (A : forall x, rsum (map (fun y => (x - y) ^ 2) l)
                        = INR (length l) * x ^ 2 + (- 2 * rsum l) * x + rsum (map (fun y => y ^ 2) l)).
  { intros x. rewrite (rsum_ext _ (fun y => 1 * (x ^ 2) + 1 * (1 * (y ^ 2) + (- 2 * x) * y))) by (intros; ring).
    rewrite (rsum_lin (fun _ => x ^ 2)), (rsum_lin (fun y => y ^ 2) (fun y => y)), rsum_const, map_id. ring. }
  rewrite (rsum_ext _ (fun x => 1 * (INR (length l) * x ^ 2 + (- 2 * rsum l) * x) + 1 * rsum (map (fun y => y ^ 2) l)))
    by (intros; rewrite A; ring).
  rewrite (rsum_lin (fun x => INR (length l) * x ^ 2 + (- 2 * rsum l) * x) (fun _ => rsum (map (fun y => y ^ 2) l))).
  rewrite (rsum_lin (fun x => x ^ 2) (fun x => x)), rsum_const, map_id. ring.
Qed.

Lemma jcov_pairs l : (2 <= length l)%nat -> jcov l = pair_variance l.
Proof.
  intros H. unfold jcov, pair_variance. rewrite pairs_squares.
  rewrite minus_INR by lia. cbn [INR].
  assert (N : 2 <= INR (length l)) by (apply le_INR in H; cbn in H; lra).
  assert (M : lmean l = rsum l / INR (length l)) by reflexivity.
  change (fold_right Rplus 0) with rsum.
  rewrite (rsum_ext _ (fun x => 1 * (1 * x ^ 2 + (- 2 * lmean l) * x) + 1 * (lmean l ^ 2))) by (intros; ring).
  rewrite (rsum_lin (fun x => 1 * x ^ 2 + (- 2 * lmean l) * x) (fun _ => lmean l ^ 2)).
  rewrite (rsum_lin (fun x => x ^ 2) (fun x => x)), rsum_const, map_id, M. field. split; lra.
Qed.

Lemma pair_variance_nonneg l : 0 <= pair_variance l.
Proof.
  assert (P : 0 <= rsum (map (fun x => rsum (map (fun y => (x - y) ^ 2) l)) l)).
  { apply rsum_nonneg. intros x _. apply rsum_nonneg. intros y _. apply pow2_ge_0. }
  unfold pair_variance. destruct (Nat.le_gt_cases 2 (length l)) as [H|H].
  - apply Rmult_le_pos; [exact P|]. left. apply Rinv_0_lt_compat.
    pose proof (lt_0_INR (length l) ltac:(lia)). pose proof (lt_0_INR (length l - 1) ltac:(lia)). nra.
  - replace (length l - 1)%nat with 0%nat by lia. cbn [INR]. rewrite Rmult_0_r. unfold Rdiv. rewrite Rinv_0. lra.
Qed.

Lemma pair_variance_pos l : 0 < pair_variance l <-> exists x y, In x l /\ In y l /\ x <> y.
Proof.
  split.
  - intros H. destruct l as [|a l]; [unfold pair_variance, rsum in H; cbn in H; lra|].
    destruct (Forall_Exists_dec (fun x => x = a) (fun x => Req_EM_T x a) (a :: l)) as [F|E].
    + exfalso. rewrite Forall_forall in F.
      assert (Z : rsum (map (fun x => rsum (map (fun y => (x - y) ^ 2) (a :: l))) (a :: l)) = 0).
      { rewrite (rsum_ext _ (fun _ => 0)), rsum_const; [ring|].
        intros x Hx. rewrite (rsum_ext _ (fun _ => 0)), rsum_const; [ring|].
        intros y Hy. rewrite (F x Hx), (F y Hy). ring. }
      unfold pair_variance in H. rewrite Z in H. lra.
    + apply Exists_exists in E. destruct E as (x & Hx & Nx). exists x, a. split; [exact Hx|]. split; [left; reflexivity|exact Nx].
  - intros (x & y & Hx & Hy & N). unfold pair_variance.
    assert (L : (2 <= length l)%nat).
    { destruct l as [|a [|b l]]; [destruct Hx| |cbn; lia]. destruct Hx as [<-|[]], Hy as [<-|[]]. congruence. }
    apply Rmult_lt_0_compat.
    + apply rsum_pos with x; [intros; apply rsum_nonneg; intros; apply pow2_ge_0|exact Hx|].
      apply rsum_pos with y; [intros; apply pow2_ge_0|exact Hy|]. cbn [pow]. rewrite Rmult_1_r. apply Rsqr_pos_lt. lra.
    + apply Rinv_0_lt_compat. pose proof (lt_0_INR (length l) ltac:(lia)). pose proof (lt_0_INR (length l - 1) ltac:(lia)). nra.
Qed.

Lemma jcov_units a b l : jcov (map (fun x => a * x + b) l) = a ^ 2 * jcov l.
Proof.
  destruct l as [|x0 l0]; [unfold jcov; cbn; unfold Rdiv; ring|]. set (l := x0 :: l0).
  assert (N : INR (length l) <> 0) by (apply not_0_INR; discriminate).
  assert (M : lmean (map (fun x => a * x + b) l) = a * lmean l + b).
  { unfold lmean. rewrite map_length. change (fold_right Rplus 0) with rsum.
    rewrite (rsum_ext _ (fun x => a * x + b * 1)) by (intros; ring).
    rewrite (rsum_lin (fun x => x) (fun _ => 1)), rsum_const, map_id. field. exact N. }
  unfold jcov. rewrite M, map_length, map_map. change (fold_right Rplus 0) with rsum.
  rewrite (rsum_ext _ (fun x => a ^ 2 * ((x - lmean l) * (x - lmean l)) + 0 * 0)) by (intros; ring).
  rewrite (rsum_lin (fun x => (x - lmean l) * (x - lmean l)) (fun _ => 0)). unfold Rdiv. ring.
Qed.

Section Equi.
  Context {Data : Type}.
  Variables (d : nat) (categorical : key -> list xr -> nat -> list nat) (normal : key -> nat -> R) (uniform : key -> R) (steps : nat)
    (nt : aensemble (Data := Data) -> nat -> xr) (rthr : R) (prior prior' : vec -> key -> xr) (lik lik' : vec -> key -> Data)
    (distance : Data -> xr) (dflt : apart (Data := Data)) (a b : nat -> R).
  Hypothesis Ha : forall i, 0 < a i.
  Hypothesis Hp : forall v k, prior' (units a b v) k = prior v k.
  Hypothesis Hl : forall v k, lik' (units a b v) k = lik v k.
  Notation T := (part_units (Data := Data) a b).
  Notation Tc := (core_units (Data := Data) a b).
  Hypothesis Hn : forall E i, nt (map T E) i = nt E i.
  Definition step_units (s : nat -> R) : nat -> R := fun i => a i ^ 2 * s i.
  Definition extra_units (e : aextra) : aextra :=
    AExtra (ae_iter e) (ae_key e) (ae_resampled e) (ae_thr e) (step_units (ae_step e)) (ae_alpha_mean e).

  Definition Ts (s : mstate (abc_core (Data := Data))) := MState (Tc (core s)) (alpha s).
  Definition Te (e : mextra abc_par) :=
    MExtra (iter e) (rkey e) (ABCPar (threshold (par e)) (step_units (stepsize (par e))) (post_mean (par e)) (diag_post_cov (par e))).
  Definition Tse (c : mstate (abc_core (Data := Data)) * mextra abc_par) := (Ts (fst c), Te (snd c)).

  Lemma value_units v s z : (fun i => units a b v i + sqrt (step_units s i) * z i) = units a b (fun i => v i + sqrt (s i) * z i).
  Proof.
    extensionality i. unfold units, step_units. rewrite sqrt_mult_alt by (apply pow2_ge_0).
    rewrite sqrt_pow2 by (left; apply Ha). ring.
  Qed.
  Lemma proposal_units s e : abc_proposal normal prior' lik' distance (Ts s) (Te e)
    = Tse (abc_proposal normal prior lik distance s e).
  Proof.
    unfold abc_proposal, Tse, Ts, Te. cbn [core alpha rkey par iter stepsize a_value core_units fst snd].
    rewrite value_units, Hp, Hl. reflexivity.
  Qed.
  Lemma update_units s e : abc_update normal prior' lik' distance uniform (Ts s) (Te e)
    = Tse (abc_update normal prior lik distance uniform s e).
  Proof.
    unfold abc_update, mcmc_update, abc_always.
    change (MExtra (S (iter (Te e))) (rkey (Te e)) (par (Te e))) with (Te (MExtra (S (iter e)) (rkey e) (par e))).
    set (e1 := MExtra (S (iter e)) (rkey e) (par e)).
    change (MExtra (iter (Te e1)) (KSplit (rkey (Te e1)) 2 0) (par (Te e1))) with (Te (MExtra (iter e1) (KSplit (rkey e1) 2 0) (par e1))).
    set (e2 := MExtra (iter e1) (KSplit (rkey e1) 2 0) (par e1)).
    rewrite proposal_units. destruct (abc_proposal normal prior lik distance s e2) as [ps pe]. cbn [Tse fst snd].
    unfold metropolis_correct.
    change (abc_acceptance (Ts s) (Te e2) (Ts ps) (Te pe)) with (abc_acceptance s e2 ps pe).
    change (rkey (Te pe)) with (rkey pe).
    destruct (xltb _ _); reflexivity.
  Qed.
  Lemma iterate_units m c : iterate (abc_update normal prior' lik' distance uniform) m (Tse c)
    = Tse (iterate (abc_update normal prior lik distance uniform) m c).
  Proof.
    revert c. induction m as [|m IH]; intros c; [reflexivity|]. cbn [iterate]. destruct c as [s e].
    first [rewrite <- IH | rewrite IH]. cbn [Tse fst snd]. rewrite update_units. reflexivity.
  Qed.
  Lemma inner_units thr s k c :
    rwabc_inner normal prior' lik' distance uniform steps thr (step_units s) k (Tc c)
    = let r := rwabc_inner normal prior lik distance uniform steps thr s k c in (Tc (fst r), snd r).
  Proof.
    unfold rwabc_inner.
    set (i0 := (MState c (Fin 1), MExtra 0 k (ABCPar thr s (fun _ => 0) (fun _ => 0)))).
    change (MState (Tc c) (Fin 1), MExtra 0 k (ABCPar thr (step_units s) (fun _ => 0) (fun _ => 0))) with (Tse i0).
    cbv zeta. rewrite iterate_units. cbn [fst snd]. f_equal. f_equal. f_equal.
    apply map_ext. intros j. rewrite iterate_units. reflexivity.
  Qed.

  Lemma lw_units E : map q_lw (map T E) = map q_lw E.
  Proof. rewrite map_map. reflexivity. Qed.
  Lemma resampled_units E e : a_resampled categorical rthr (T dflt) (map T E) (extra_units e) = map T (a_resampled categorical rthr dflt E e).
  Proof.
    unfold a_resampled, a_resample_criterion.
    assert (F : afirst_ess (map T E) = afirst_ess E) by (destruct E; reflexivity).
    rewrite F, map_length. destruct (xltb _ _); [|reflexivity].
    unfold a_resample. rewrite map_length, lw_units, map_map. change (ae_key (extra_units e)) with (ae_key e).
    apply map_ext. intros i. rewrite map_nth. reflexivity.
  Qed.
  Lemma combine_map {A B C} (f : B -> C) (l : list A) (m : list B) : combine l (map f m) = map (fun p => (fst p, f (snd p))) (combine l m).
  Proof. revert m. induction l as [|x l IH]; intros [|y m]; try reflexivity. cbn. rewrite IH. reflexivity. Qed.
  Lemma moved_units E e :
    a_moved categorical (rwabc_inner normal prior' lik' distance uniform steps) rthr (T dflt) (map T E) (extra_units e)
    = map T (a_moved categorical (rwabc_inner normal prior lik distance uniform steps) rthr dflt E e).
  Proof.
    unfold a_moved. rewrite resampled_units, map_length, combine_map, !map_map. apply map_ext. intros [i p]. cbn [fst snd].
    unfold a_forward. change (q_lw (T p)) with (q_lw p). destruct (xltb _ _); [|reflexivity].
    change (ae_step (extra_units e)) with (step_units (ae_step e)). change (q_core (T p)) with (Tc (q_core p)).
    rewrite inner_units. destruct (rwabc_inner normal prior lik distance uniform steps _ _ _ _). reflexivity.
  Qed.
  Lemma step_units_adapt E s s' :
    adapt_stepsize_scaled_diag_cov d (map T E) s' = step_units (adapt_stepsize_scaled_diag_cov d E s).
  Proof.
    extensionality i. unfold adapt_stepsize_scaled_diag_cov, step_units. rewrite map_map.
    change (map (fun x => a_value (q_core (T x)) i) E) with (map (fun x => a i * a_value (q_core x) i + b i) E).
    rewrite <- (map_map (fun p => a_value (q_core p) i) (fun x => a i * x + b i) E).
    rewrite jcov_units. unfold Rdiv. ring.
  Qed.
  Lemma alpha_units (P E : aensemble (Data := Data)) : a_alpha_mean (map T P) (map T E) = a_alpha_mean P E.
  Proof.
    unfold a_alpha_mean. rewrite map_map.
    change (map (fun x => xltb NInf (q_lw (T x))) P) with (map (fun p => xltb NInf (q_lw p)) P).
    set (al := map _ P). f_equal. f_equal.
    assert (C : combine (map T E) al = map (fun p => (T (fst p), snd p)) (combine E al)).
    { clearbody al. revert al. induction E as [|x l IH]; intros [|y m]; try reflexivity. cbn. rewrite IH. reflexivity. }
    rewrite C, map_map. reflexivity.
  Qed.
  Lemma adapt_units P E e :
    a_adapt (adapt_stepsize_scaled_diag_cov d) nt (map T P) (map T E) (extra_units e)
    = (let r := a_adapt (adapt_stepsize_scaled_diag_cov d) nt P E e in (map T (fst r), extra_units (snd r))).
  Proof.
    unfold a_adapt. cbv zeta. cbn [fst snd]. change (ae_iter (extra_units e)) with (ae_iter e). rewrite Hn, alpha_units.
    assert (W : forall t, map (fun p => a_log_weight t (q_core p)) (map T E) = map (fun p => a_log_weight t (q_core p)) E).
    { intros t. rewrite map_map. reflexivity. }
    rewrite W.
    assert (O : forall t x, map (fun p => APart (q_core p) (q_alpha p) t (a_log_weight t (q_core p)) x) (map T E)
                = map T (map (fun p => APart (q_core p) (q_alpha p) t (a_log_weight t (q_core p)) x) E)).
    { intros t x. rewrite !map_map. reflexivity. }
    rewrite O, (step_units_adapt _ (ae_step e)). reflexivity.
  Qed.
  Lemma default_update_units E e :
    default_update d categorical normal uniform steps nt rthr prior' lik' distance (T dflt) (map T E) (extra_units e)
    = (let r := default_update d categorical normal uniform steps nt rthr prior lik distance dflt E e in (map T (fst r), extra_units (snd r))).
  Proof.
    unfold default_update, a_update. cbv zeta. rewrite resampled_units, moved_units, map_length.
    rewrite <- adapt_units. f_equal. unfold extra_units at 2. cbn [ae_iter ae_key ae_resampled ae_thr ae_step ae_alpha_mean].
    assert (F : a_resample_criterion rthr (map T E) = a_resample_criterion rthr E).
    { unfold a_resample_criterion. rewrite map_length. destruct E; reflexivity. }
    rewrite F. reflexivity.
  Qed.
  Lemma default_startup_units thr0 vs k :
    default_startup d nt prior' lik' distance thr0 (map (units a b) vs) k
    = (let r := default_startup d nt prior lik distance thr0 vs k in (map T (fst r), extra_units (snd r))).
  Proof.
    unfold default_startup, a_startup. rewrite map_length.
    assert (P : a_prestart prior' lik' distance thr0 (map (units a b) vs) k = map T (a_prestart prior lik distance thr0 vs k)).
    { unfold a_prestart. rewrite map_length, combine_map, !map_map. apply map_ext. intros [i v]. cbn [fst snd].
      rewrite Hp, Hl. reflexivity. }
    rewrite P.
    set (E := a_prestart prior lik distance thr0 vs k).
    set (e0 := AExtra 0 (KSplit (KSplit k (length vs + 1) (length vs)) (length vs + 1) (length vs)) true thr0 (fun _ => 0) (Fin 1)).
    assert (Z : e0 = extra_units e0).
    { unfold extra_units, e0. cbn. f_equal. extensionality i. unfold step_units. ring. }
    rewrite Z at 1. rewrite adapt_units. cbv zeta.
    destruct (a_adapt (adapt_stepsize_scaled_diag_cov d) nt E E e0) as [out e]. cbn [fst snd].
    rewrite alpha_units. reflexivity.
  Qed.
End Equi.

Lemma adaptive_units {Data : Type} a b retain (E : aensemble (Data := Data)) i :
  next_threshold_adaptive retain (map (part_units a b) E) i = next_threshold_adaptive retain E i.
Proof.
  unfold next_threshold_adaptive.
  assert (F : afirst_ess (map (part_units a b) E) = afirst_ess E) by (destruct E; reflexivity).
  rewrite F, map_length, map_map. reflexivity.
Qed.

Section Collapse.
  Context {Data : Type}.
  Variables (d : nat) (categorical : key -> list xr -> nat -> list nat) (normal : key -> nat -> R) (uniform : key -> R) (steps : nat)
    (nt : aensemble (Data := Data) -> nat -> xr) (rthr : R) (prior : vec -> key -> xr) (lik : vec -> key -> Data)
    (distance : Data -> xr) (dflt : apart (Data := Data)).
  Hypothesis Ok : categorical_ok categorical.
  Variables (i : nat) (x : R).

  Lemma inner_stuck thr s k c : s i = 0 -> a_value c i = x ->
    a_value (fst (rwabc_inner normal prior lik distance uniform steps thr s k c)) i = x.
  Proof.
    intros Hs Hc. unfold rwabc_inner. cbn [fst].
    set (i0 := (MState c (Fin 1), MExtra 0 k (ABCPar thr s (fun _ => 0) (fun _ => 0)))).
    assert (I : forall m, let r := iterate (abc_update normal prior lik distance uniform) m i0 in
              a_value (core (fst r)) i = x /\ stepsize (par (snd r)) i = 0).
    { induction m as [|m IH]; [split; assumption|]. cbn [iterate]. cbv zeta in *. destruct IH as [A B].
      destruct (iterate _ m i0) as [s1 e1]. cbn [fst snd] in *.
      unfold abc_update, mcmc_update, abc_always, abc_proposal, metropolis_correct. cbn [core par rkey iter alpha].
      destruct (xltb _ _); cbn [fst snd core par a_value].
      - split; [|exact B]. rewrite B, sqrt_0, A. ring.
      - split; assumption. }
    apply I.
  Qed.

  Lemma update_stuck E e : ae_step e i = 0 -> (forall p, In p E -> a_value (q_core p) i = x) ->
    forall p, In p (fst (default_update d categorical normal uniform steps nt rthr prior lik distance dflt E e)) -> a_value (q_core p) i = x.
  Proof.
    intros Hs HE p Hp. unfold default_update, a_update, a_adapt in Hp. cbn [fst] in Hp.
    apply in_map_iff in Hp. destruct Hp as (q & <- & Hq). cbn [q_core].
    unfold a_moved in Hq. apply in_map_iff in Hq. destruct Hq as ([j r] & <- & Hr). cbn [fst snd].
    apply in_combine_r in Hr.
    destruct (a_resampled_in categorical rthr dflt Ok E e r Hr) as (q & Hq & Ec & _).
    unfold a_forward. destruct (xltb _ _); [|rewrite Ec; apply HE, Hq].
    pose proof (inner_stuck (ae_thr e) (ae_step e) (KSplit (ae_key e) (length E + 2) j) (q_core r) Hs) as S.
    destruct (rwabc_inner _ _ _ _ _ _ _ _ _ _) as [c al]. cbn [q_core fst] in *. apply S. rewrite Ec. apply HE, Hq.
  Qed.
End Collapse.
