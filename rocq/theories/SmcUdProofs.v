(** Proofs that SMC runs with Underdamped as inner sampler are unbiased. *)
From Coq Require Import Reals List Arith Bool Lia Lra FunctionalExtensionality.
From Verif Require Import XR Keys LoopModel LoopSpec LoopProofs McmcModel McmcSpec McmcProofs HmcModel HmcProofs WeightsModel WeightsSpec SmcModel SmcSpec SmcProofs
  UnbSpec UnbProofs KexpSpec KexpProofs RejLawProofs ChainModel ChainSpec ChainProofs HmcLawSpec HmcLawProofs MalaProofs SmcLawModel SmcLawSpec SmcMoveProofs SmcUdModel SmcUdSpec.
Import ListNotations.
Open Scope R_scope.

(** * Kernels given by chains on finitely many points *)
Section KC.
  Variable supp : list vec.
  Hypothesis HN : NoDup supp.
  Variable M : vec -> (vec -> R) -> R.
  Hypothesis Mext : forall x f g, In x supp -> (forall y, In y supp -> f y = g y) -> M x f = M x g.
  Hypothesis Mplus : forall x f g, M x (fun y => f y + g y) = M x f + M x g.
  Hypothesis Mscal : forall x a f, M x (fun y => a * f y) = a * M x f.
  Hypothesis Mconst : forall x a, M x (fun _ => a) = a.
  Variable steps : nat.
  Definition v0 : vec := fun _ => 0.
  Definition kc (x y : vec) : R := chain_mean M steps x (fun r => if dec (nth steps r v0 = y) then 1 else 0).

  Lemma kc_supp m : forall x f g, In x supp -> (forall r, List.Forall (fun y => In y supp) r -> length r = S m -> f r = g r) ->
    chain_mean M m x f = chain_mean M m x g.
  Proof.
    induction m as [|m IH]; intros x f g Hx E; cbn [chain_mean].
    - apply E; [repeat constructor; exact Hx|reflexivity].
    - apply Mext; [exact Hx|]. intros y Hy. apply IH; [exact Hy|]. intros r Fr Lr.
      apply E; [constructor; assumption|cbn; lia].
  Qed.
  Lemma kc_plus m : forall x f g, In x supp -> chain_mean M m x (fun r => f r + g r) = chain_mean M m x f + chain_mean M m x g.
  Proof.
    induction m as [|m IH]; intros x f g Hx; cbn [chain_mean]; [reflexivity|]. rewrite <- Mplus. apply Mext; [exact Hx|].
    intros y Hy. apply IH, Hy.
  Qed.
  Lemma kc_scal m : forall x a f, In x supp -> chain_mean M m x (fun r => a * f r) = a * chain_mean M m x f.
  Proof.
    induction m as [|m IH]; intros x a f Hx; cbn [chain_mean]; [reflexivity|]. rewrite <- Mscal. apply Mext; [exact Hx|].
    intros y Hy. apply IH, Hy.
  Qed.
  Lemma kc_const m a : forall x, In x supp -> chain_mean M m x (fun _ => a) = a.
  Proof.
    induction m as [|m IH]; intros x Hx; cbn [chain_mean]; [reflexivity|].
    transitivity (M x (fun _ => a)); [|apply Mconst]. apply Mext; [exact Hx|]. intros y Hy. apply IH, Hy.
  Qed.
  Lemma kc_Rsum m x {B} (f : B -> list vec -> R) ys : In x supp ->
    chain_mean M m x (fun r => Rsum (map (fun y => f y r) ys)) = Rsum (map (fun y => chain_mean M m x (f y)) ys).
  Proof.
    intros Hx. induction ys as [|y ys IH]; cbn [map Rsum]; [apply kc_const, Hx|]. rewrite <- IH. apply kc_plus, Hx.
  Qed.

  Lemma kc_mean x phi : In x supp ->
    Rsum (map (fun y => kc x y * phi y) supp) = chain_mean M steps x (fun r => phi (nth steps r v0)).
  Proof.
    intros Hx. unfold kc.
    rewrite (Rsum_ext _ (fun y => chain_mean M steps x (fun r => phi y * (if dec (nth steps r v0 = y) then 1 else 0)))).
    2:{ intros y _. rewrite Rmult_comm. symmetry. apply kc_scal, Hx. }
    rewrite <- (kc_Rsum steps x (fun y r => phi y * (if dec (nth steps r v0 = y) then 1 else 0)) supp Hx).
    apply kc_supp; [exact Hx|]. intros r Fr Lr.
    assert (Hr : In (nth steps r v0) supp).
    { rewrite Forall_forall in Fr. apply (Fr (nth steps r v0)). apply nth_In. lia. }
    rewrite (Rsum_ext _ (fun y => if dec (nth steps r v0 = y) then phi y else 0)).
    2:{ intros y _. destruct (dec _); ring. }
    apply (Rsum_single (nth steps r v0) phi supp HN). intros C. contradiction.
  Qed.
  Lemma kc_rows x : In x supp -> Rsum (map (kc x) supp) = 1.
  Proof.
    intros Hx. rewrite (Rsum_ext _ (fun y => kc x y * 1)) by (intros; ring). rewrite (kc_mean x (fun _ => 1) Hx). apply kc_const, Hx.
  Qed.

  Variable g : vec -> R.
  Hypothesis Minv : forall phi, Rsum (map (fun x => g x * M x phi) supp) = Rsum (map (fun x => g x * phi x) supp).
  Lemma kc_keeps phi e : forall t m, (t <= m)%nat ->
    Rsum (map (fun x => g x * chain_mean M m x (fun r => phi (nth t r e))) supp) = Rsum (map (fun x => g x * phi x) supp).
  Proof.
    induction t as [|t IH]; intros m Hm.
    - apply Rsum_ext. intros x Hx. f_equal. destruct m as [|m]; [reflexivity|]. cbn [chain_mean nth].
      transitivity (M x (fun _ => phi x)); [|apply Mconst]. apply Mext; [exact Hx|]. intros y Hy. apply kc_const, Hy.
    - destruct m as [|m]; [lia|]. cbn [chain_mean nth].
      rewrite (Minv (fun y => chain_mean M m y (fun l => phi (nth t l e)))). apply IH. lia.
  Qed.
  Lemma kc_inv y : In y supp -> Rsum (map (fun x => g x * kc x y) supp) = g y.
  Proof.
    intros Hy. unfold kc. rewrite (kc_keeps (fun z => if dec (z = y) then 1 else 0) v0 steps steps (le_n _)).
    rewrite (Rsum_ext _ (fun x => if dec (y = x) then g x else 0)).
    2:{ intros x _. destruct (dec (x = y)) as [D|D], (dec (y = x)) as [D'|D']; try congruence; ring. }
    apply (Rsum_single y g supp HN). intros C. contradiction.
  Qed.
End KC.

Lemma iterate_same {St Ex} (f : St -> Ex -> St * Ex) c c' j : f (fst c) (snd c) = f (fst c') (snd c') -> iterate f (S j) c = iterate f (S j) c'.
Proof.
  intros H. induction j as [|j IH]; [exact H|].
  change (f (fst (iterate f (S j) c)) (snd (iterate f (S j) c)) = f (fst (iterate f (S j) c')) (snd (iterate f (S j) c'))).
  rewrite IH. reflexivity.
Qed.

(** * Without friction memory, the momenta do not matter *)
Section Mom.
  Variable d : nat.
  Variable normal : key -> nat -> R.
  Variable uniform : key -> R.
  Variable prior_pg lik_pg : vec -> key -> xr * vec.
  Variables L steps : nat.

  Notation update := (ud_update d normal prior_pg lik_pg).
  Lemma always_mom s a m e : h_friction (par e) = None ->
    ud_always normal (MState (set_mom s m) a) e = ud_always normal (MState s a) e.
  Proof.
    intros F. unfold ud_always, ou_decay, ou_decay2. rewrite F. cbn [core alpha]. unfold set_mom. cbn. do 3 f_equal.
    apply functional_extensionality. intros i. unfold vadd, vscale. ring.
  Qed.
  Lemma update_mom t s a m e : h_friction (par e) = None ->
    update t L uniform (MState (set_mom s m) a) e = update t L uniform (MState s a) e.
  Proof.
    intros F. unfold ud_update, mcmc_update. rewrite always_mom by exact F. reflexivity.
  Qed.

  Notation states := (ud_inner_states d normal uniform prior_pg lik_pg None L).
  Lemma at_value_mom t v m m' k : at_value prior_pg lik_pg t v m k = set_mom (at_value prior_pg lik_pg t v m' k) m.
  Proof. unfold at_value. destruct (prior_pg v k), (lik_pg v k). reflexivity. Qed.
  Lemma states_mom t step k v m j : states t step k v m (S j) = states t step k v v0 (S j).
  Proof.
    unfold ud_inner_states. apply iterate_same. unfold ud_startup. cbn [fst snd].
    rewrite (at_value_mom t v m v0 (KSplit k 3 1)). apply update_mom. reflexivity.
  Qed.
  Lemma final_mom t step k v m j :
    h_value (core (fst (states t step k v m j))) = h_value (core (fst (states t step k v v0 j)))
    /\ h_pot (core (fst (states t step k v m j))) = h_pot (core (fst (states t step k v v0 j)))
    /\ snd (states t step k v m j) = snd (states t step k v v0 j).
  Proof.
    destruct j as [|j]; [|rewrite states_mom; repeat split].
    unfold ud_inner_states. cbn [iterate]. unfold ud_startup. cbn [fst snd core]. rewrite (at_value_mom t v m v0). repeat split.
  Qed.
  Lemma alpha_mom t step k v m :
    ud_inner_alpha d normal uniform prior_pg lik_pg None L steps t step k v m
    = ud_inner_alpha d normal uniform prior_pg lik_pg None L steps t step k v v0.
  Proof. unfold ud_inner_alpha. do 2 f_equal. apply map_ext. intros j. rewrite states_mom. reflexivity. Qed.

  (** the inner sampler as SmcModel sees it *)
  Definition ud_inner (t step : R) (k : key) (v : vec) : (vec * xr * xr) * key :=
    let f := states t step k v v0 steps in
    ((h_value (core (fst f)), h_pot (core (fst f)), ud_inner_alpha d normal uniform prior_pg lik_pg None L steps t step k v v0), rkey (snd f)).

  (** * Erasing gradients, acceptance and momenta *)
  Definition er (p : part) : part :=
    Part (p_value p) (p_prior p) (p_lik p) (p_pot p) v0 v0 v0 (Fin 1) (p_temp p) (p_lw p) (p_ess p) (p_lnc p).

  Variable cat : key -> list xr -> nat -> list nat.
  Variable l : list R.
  Variable thr : R.
  Notation next := (scheduled l).
  Notation prior := (ud_prior prior_pg).

  Lemma first_er E : p_temp (first (map er E)) = p_temp (first E).
  Proof. destruct E; reflexivity. Qed.
  Lemma crit_er E : resample_criterion thr (map er E) = resample_criterion thr E.
  Proof. unfold resample_criterion. rewrite map_length. destruct E; reflexivity. Qed.
  Lemma lw_er E : map p_lw (map er E) = map p_lw E.
  Proof. rewrite map_map. reflexivity. Qed.
  Lemma er_nth i E : er (nth i (map er E) dpart) = er (nth i E dpart).
  Proof.
    destruct (lt_dec i (length E)) as [H|H].
    - rewrite (nth_indep _ dpart (er dpart)) by (rewrite map_length; exact H). rewrite (map_nth er). reflexivity.
    - rewrite !nth_overflow by (rewrite ?map_length; lia). reflexivity.
  Qed.
  Lemma resampled_er E e : map er (resampled_ensemble cat thr (map er E) e) = map er (resampled_ensemble cat thr E e).
  Proof.
    unfold resampled_ensemble. rewrite crit_er, map_length. destruct (resample_criterion thr E).
    - unfold resample. rewrite map_length, lw_er, !map_map. apply map_ext. intros i.
      pose proof (er_nth i E) as H. unfold er, set_weight in *. cbn in *. injection H as -> -> -> -> -> _ _ ->. reflexivity.
    - rewrite map_map. reflexivity.
  Qed.
  Lemma forward_er t st k p q : er p = er q -> er (forward_proposal prior ud_inner t st k p) = er (forward_proposal prior ud_inner t st k q).
  Proof.
    intros H. unfold forward_proposal. unfold er in H. injection H as H1 H2 H3 H4 H5 H6 H7 H8. rewrite <- H1.
    destruct (ud_inner t st k (p_value p)) as [[[v po] al] fk]. unfold er. cbn. rewrite H5, H6, H7, H8. reflexivity.
  Qed.
  Lemma adapt_er A B A' B' it : map er A = map er A' -> map er B = map er B' -> map er (adapt next A B it) = map er (adapt next A' B' it).
  Proof.
    intros HA HB. unfold adapt.
    assert (Fa : p_temp (first A) = p_temp (first A')) by (rewrite <- first_er, HA, first_er; reflexivity).
    assert (La : map p_lw A = map p_lw A') by (rewrite <- lw_er, HA, lw_er; reflexivity).
    unfold scheduled. rewrite Fa, La.
    assert (Lw : map (fun pq => xadd (p_lw (fst pq)) (log_weight (p_temp (first A')) (nth it l (last l 0)) (snd pq))) (combine A B)
               = map (fun pq => xadd (p_lw (fst pq)) (log_weight (p_temp (first A')) (nth it l (last l 0)) (snd pq))) (combine A' B')).
    { clear - HA HB. generalize (p_temp (first A')). intros t. revert A' B B' HA HB. induction A as [|a A IH]; intros [|a' A'] B B' HA HB; try discriminate; [reflexivity|].
      destruct B as [|b B], B' as [|b' B']; try discriminate; [reflexivity|]. cbn in *.
      injection HA as E1 E2 E3 E4 E5 E6 E7 E8 HA. injection HB as F1 F2 F3 F4 F5 F6 F7 F8 HB. f_equal; [|apply IH; assumption].
      unfold log_weight. rewrite E6, F3. reflexivity. }
    rewrite Lw.
    generalize (map (fun pq => xadd (p_lw (fst pq)) (log_weight (p_temp (first A')) (nth it l (last l 0)) (snd pq))) (combine A' B')).
    intros lw. rewrite !map_map.
    match goal with |- context [xsub _ ?z] => generalize z end. intros z.
    generalize (logsumexp lw) (xexp (log_ess_log_weight lw)). intros y x. clear - HA HB.
    revert A' B B' lw HA HB. induction A as [|a A IH]; intros [|a' A'] B B' lw HA HB; try discriminate; [reflexivity|].
    destruct B as [|b B], B' as [|b' B']; try discriminate; [reflexivity|]. destruct lw as [|w lw]; [reflexivity|]. cbn [combine map].
    cbn in HA, HB. injection HA as E1 E2 E3 E4 E5 E6 E7 E8 HA. injection HB as F1 F2 F3 F4 F5 F6 F7 F8 HB. f_equal; [|apply IH; assumption].
    unfold er. cbn. rewrite E8, F1, F2, F3. reflexivity.
  Qed.

  Lemma moved_er E B e : map er E = map er B ->
    map er (moved_ensemble prior cat ud_inner thr E e) = map er (moved_ensemble prior cat ud_inner thr B e).
  Proof.
    intros H. unfold moved_ensemble.
    assert (Le : length E = length B) by (rewrite <- (map_length er E), H, map_length; reflexivity).
    assert (Fe : p_temp (first E) = p_temp (first B)) by (rewrite <- first_er, H, first_er; reflexivity).
    assert (Re : map er (resampled_ensemble cat thr E e) = map er (resampled_ensemble cat thr B e)).
    { rewrite <- (resampled_er E), H. apply resampled_er. }
    rewrite Le, Fe.
    assert (G : forall xs ys c a m, map er xs = map er ys ->
      map er (map (fun ip => forward_proposal prior ud_inner (p_temp (first B)) (s_step e) (KSplit (s_key e) m (fst ip)) (snd ip)) (combine (seq a c) xs))
      = map er (map (fun ip => forward_proposal prior ud_inner (p_temp (first B)) (s_step e) (KSplit (s_key e) m (fst ip)) (snd ip)) (combine (seq a c) ys))).
    { clear. intros xs. induction xs as [|x xs IH]; intros [|y ys] c a m Re; try discriminate; [reflexivity|].
      destruct c as [|c]; [reflexivity|]. cbn [seq combine map fst snd]. cbn [map] in Re.
      pose proof (f_equal (hd dpart) Re) as Hx. pose proof (f_equal (@List.tl part) Re) as Hxs. cbn [hd List.tl] in Hx, Hxs.
      f_equal; [apply forward_er; exact Hx|apply IH; exact Hxs]. }
    apply G, Re.
  Qed.

  Lemma update_er E B e : map er E = map er B ->
    map er (fst (smc_update prior cat ud_inner next thr E e)) = map er (fst (smc_update prior cat ud_inner next thr B e))
    /\ snd (smc_update prior cat ud_inner next thr E e) = snd (smc_update prior cat ud_inner next thr B e).
  Proof.
    intros H. assert (Le : length E = length B) by (rewrite <- (map_length er E), H, map_length; reflexivity).
    unfold smc_update. cbn [fst snd]. split.
    - apply adapt_er; [|apply moved_er, H]. rewrite <- (resampled_er E), H. apply resampled_er.
    - rewrite Le. rewrite <- (crit_er E), H, crit_er. reflexivity.
  Qed.

  (** * The run with momenta refines the run without *)
  Notation uupdate := (ud_smc_update d normal uniform prior_pg lik_pg cat next thr None L steps).
  Lemma resampled_u E e : map u_part (ud_resampled cat thr E e) = resampled_ensemble cat thr (map u_part E) e.
  Proof.
    unfold ud_resampled, resampled_ensemble. destruct (resample_criterion thr (map u_part E)); [|reflexivity].
    unfold ud_resample, resample. rewrite !map_map, map_length. apply map_ext. intros i. cbn [u_part].
    change dpart with (u_part dupart). rewrite (map_nth u_part). reflexivity.
  Qed.
  Lemma forward_u t st k q : er (u_part (ud_forward d normal uniform prior_pg lik_pg None L steps t st k q))
    = er (forward_proposal prior ud_inner t st k (u_part q)).
  Proof.
    unfold ud_forward, forward_proposal, ud_inner. cbn [u_part].
    destruct (final_mom t st k (p_value (u_part q)) (u_mom q) steps) as (-> & -> & ->). reflexivity.
  Qed.
  Lemma moved_u E e : map er (map u_part (ud_moved d normal uniform prior_pg lik_pg cat thr None L steps E e))
    = map er (moved_ensemble prior cat ud_inner thr (map u_part E) e).
  Proof.
    unfold ud_moved, moved_ensemble. rewrite map_length, <- resampled_u, combine_map_r, !map_map. apply map_ext. intros [i q].
    cbn [fst snd]. apply forward_u.
  Qed.
  Lemma map_fst_combine {A B} (a : list A) (b : list B) : (length a <= length b)%nat -> map fst (combine a b) = a.
  Proof.
    revert b. induction a as [|x a IH]; intros [|y b] H; cbn in *; try reflexivity; [lia|]. f_equal. apply IH. lia.
  Qed.
  Lemma update_u E e : let c := uupdate E e in let c' := smc_update prior cat ud_inner next thr (map u_part E) e in
    map er (map u_part (fst c)) = map er (fst c') /\ snd c = snd c'.
  Proof.
    unfold ud_smc_update, smc_update. cbn [fst snd]. rewrite map_length. split; [|reflexivity].
    rewrite (map_map _ u_part). cbn [u_part].
    match goal with |- map er (map _ (combine ?a ?b)) = _ => change (map er (map fst (combine a b)) = map er (adapt next (resampled_ensemble cat thr (map u_part E) e) (moved_ensemble prior cat ud_inner thr (map u_part E) e) (S (s_iter e)))) end.
    rewrite map_fst_combine.
    - apply adapt_er; [rewrite resampled_u; reflexivity|apply moved_u].
    - unfold adapt. repeat rewrite ?map_length, ?combine_length. lia.
  Qed.

  Definition sim (c : list upart * sextra) (c' : ensemble * sextra) : Prop := map er (map u_part (fst c)) = map er (fst c') /\ snd c = snd c'.
  Lemma iterate_sim c c' j : sim c c' -> sim (iterate uupdate j c) (iterate (smc_update prior cat ud_inner next thr) j c').
  Proof.
    intros H. induction j as [|j IH]; [exact H|]. cbn [iterate]. destruct IH as [IH1 IH2].
    destruct (update_u (fst (iterate uupdate j c)) (snd (iterate uupdate j c))) as [U1 U2]. cbv zeta in U1, U2.
    destruct (update_er _ _ (snd (iterate uupdate j c)) IH1) as [V1 V2]. split.
    - rewrite U1, V1, IH2. reflexivity.
    - rewrite U2, V2, IH2. reflexivity.
  Qed.
  Lemma run_sim c c' mi mt : sim c c' ->
    map (map er) (map (map u_part) (ud_smc_run d normal uniform prior_pg lik_pg cat next thr None L steps mi mt c))
    = map (map er) (smc_run prior cat ud_inner next thr mi mt c').
  Proof.
    intros H. unfold ud_smc_run, smc_run.
    destruct (run_loop_correct (fun E e => Rleb mt (p_temp (first (map u_part E))) || (mi <=? s_iter e)%nat) uupdate c mi) as (m & Hm & ->).
    destruct (run_loop_correct (fun E e => Rleb mt (p_temp (first E)) || (mi <=? s_iter e)%nat) (smc_update prior cat ud_inner next thr) c' mi) as (m' & Hm' & ->).
    assert (S : forall j, Rleb mt (p_temp (first (map u_part (fst (iterate uupdate j c))))) || (mi <=? s_iter (snd (iterate uupdate j c)))%nat
      = Rleb mt (p_temp (first (fst (iterate (smc_update prior cat ud_inner next thr) j c'))))
        || (mi <=? s_iter (snd (iterate (smc_update prior cat ud_inner next thr) j c')))%nat).
    { intros j. destruct (iterate_sim c c' j H) as [E1 E2]. rewrite E2. rewrite <- first_er, E1, first_er. reflexivity. }
    assert (m = m').
    { refine (stops_at_unique (fun E e => negb (Rleb mt (p_temp (first E)) || (mi <=? s_iter e)%nat)) (smc_update prior cat ud_inner next thr) c' mi m m' _ Hm').
      destruct Hm as (A & B & C). split; [exact A|]. split; [intros j Hj; rewrite <- S; apply B, Hj|].
      destruct C as [C|C]; [left; exact C|right; rewrite <- S; exact C]. }
    subst m'. rewrite !map_map. apply map_ext. intros j. exact (proj1 (iterate_sim c c' j H)).
  Qed.
End Mom.
(** * The law of the run *)
Section Law.
  Context {W : Type}.
  Variable P : law W.
  Hypothesis HP : prob P.
  Variable unif : W -> R.
  Variable nrm : W -> nat -> R.
  Variable psamp : W -> vec.
  Variable cat : W -> list xr -> nat -> list nat.
  Variable pg lg : vec -> xr * vec.
  Variable fp fl : vec -> R.
  Variable supp : list vec.
  Variables d L : nat.
  Variable l : list R.
  Variable thr st : R.
  Variable steps n J0 : nat.
  Notation T := (fun j => nth j l (last l 0)).
  Notation pot := (pot fp fl).
  Notation U := (tempered_pot pg lg).
  Notation G := (tempered_grad pg lg).
  Notation tr := (fun t => trajectory (G t) st L).
  Notation en := (fun t => energy d (U t)).
  Notation pp := (fun v (_ : key) => pg v).
  Notation lp := (fun v (_ : key) => lg v).
  Notation par0 := (HPar st None).

  Hypothesis Hin : forall x, In x supp -> fst (pg x) = Fin (fp x).
  Hypothesis Hout : forall x, ~ In x supp -> fst (pg x) = PInf.
  Hypothesis Hlik : forall x, fst (lg x) = Fin (fl x).
  Hypothesis HN : NoDup supp.
  Hypothesis Hunif : forall x, 0 <= unif x < 1.
  Hypothesis Hu : forall j x u, (j < J0)%nat -> In x supp -> In (fst (tr (T j) (x, nrm u))) supp ->
    uniform_ok P unif (accept (en (T j) (x, nrm u)) (en (T j) (tr (T j) (x, nrm u)))).
  Hypothesis Hcan : forall j, (j < J0)%nat -> canonical d (U (T j)) (G (T j)) st L P nrm supp.

  Lemma U_in t v : In v supp -> U t v = pot t v.
  Proof. intros H. unfold tempered_pot. rewrite Hin, Hlik by exact H. reflexivity. Qed.
  Lemma U_out t v : ~ In v supp -> U t v = PInf.
  Proof. intros H. unfold tempered_pot. rewrite Hout, Hlik by exact H. reflexivity. Qed.
  Lemma U_ninf t v : U t v <> NInf.
  Proof. destruct (dec (In v supp)) as [H|H]; [rewrite U_in by exact H|rewrite U_out by exact H]; discriminate. Qed.

  Lemma accept_off t y z : In (fst y) supp -> ~ In (fst z) supp -> accept (en t y) (en t z) = 0.
  Proof. intros Hy Hz. unfold energy. rewrite U_in by exact Hy. rewrite U_out by exact Hz. reflexivity. Qed.

  Definition pm (t : R) (x : vec) (f : vec -> R) : R := hmc_kernel d (U t) (G t) st P nrm L 0 (x, v0) (fun z => f (fst z)).
  Lemma pm_eq t x f : pm t x f = mean P (fun u => let a := accept (en t (x, nrm u)) (en t (tr t (x, nrm u))) in
    a * f (fst (tr t (x, nrm u))) + (1 - a) * f x).
  Proof. unfold pm, hmc_kernel. apply mean_fext. intros u. cbv zeta. rewrite refresh0. reflexivity. Qed.
  Lemma pm_lump t z f : hmc_kernel d (U t) (G t) st P nrm L 0 z (fun y => f (fst y)) = pm t (fst z) f.
  Proof. rewrite pm_eq. unfold hmc_kernel. apply mean_fext. intros u. cbv zeta. rewrite refresh0. reflexivity. Qed.
  Lemma pm_ext t x f g : In x supp -> (forall y, In y supp -> f y = g y) -> pm t x f = pm t x g.
  Proof.
    intros Hx H. rewrite !pm_eq. apply mean_fext. intros u. cbv zeta.
    destruct (dec (In (fst (tr t (x, nrm u))) supp)) as [D|D].
    - rewrite (H _ D), (H _ Hx). reflexivity.
    - rewrite (accept_off t (x, nrm u) _ Hx D), (H _ Hx). ring.
  Qed.
  Lemma pm_plus t x f g : pm t x (fun y => f y + g y) = pm t x f + pm t x g.
  Proof. rewrite !pm_eq, <- mean_plus. apply mean_fext. intros u. cbv zeta. ring. Qed.
  Lemma pm_scal t x a f : pm t x (fun y => a * f y) = a * pm t x f.
  Proof. rewrite !pm_eq, <- mean_scal. apply mean_fext. intros u. cbv zeta. ring. Qed.
  Lemma pm_const t x a : pm t x (fun _ => a) = a.
  Proof. rewrite pm_eq. transitivity (mean P (fun _ => a)); [|apply mean_const, HP]. apply mean_fext. intros u. cbv zeta. ring. Qed.

  Lemma density_gam t x : In x supp -> density (U t x) = gam fp fl t x.
  Proof. intros Hx. rewrite U_in by exact Hx. unfold gam, SmcMoveProofs.pot. cbn [density]. f_equal. ring. Qed.

  Lemma pm_inv j phi : (j < J0)%nat ->
    Rsum (map (fun x => gam fp fl (T j) x * pm (T j) x phi) supp) = Rsum (map (fun x => gam fp fl (T j) x * phi x) supp).
  Proof.
    intros Hj. destruct (Hcan j Hj) as (mu & HT & HC).
    assert (HR : forall f : phase -> R, mean mu (fun z => boltzmann d (U (T j)) z * mean P (fun u => f (refreshed 0 z (nrm u))))
                                      = mean mu (fun z => boltzmann d (U (T j)) z * f z)).
    { intros f. rewrite <- !HC. apply Rsum_ext. intros x _. f_equal.
      rewrite (mean_fext P _ (fun _ => mean P (fun u => f (x, nrm u)))); [apply mean_const, HP|].
      intros u. apply mean_fext. intros u'. rewrite refresh0. reflexivity. }
    pose proof (hmc_invariant P nrm d L (U (T j)) (G (T j)) st 0 (U_ninf (T j)) mu HT HR (fun z => phi (fst z))) as H.
    rewrite (mean_fext mu _ (fun z => boltzmann d (U (T j)) z * pm (T j) (fst z) phi)) in H by (intros z; rewrite pm_lump; reflexivity).
    rewrite <- (HC (fun z => pm (T j) (fst z) phi)), <- (HC (fun z => phi (fst z))) in H. cbn [fst] in H.
    etransitivity; [|etransitivity; [exact H|]]; apply Rsum_ext; intros x Hx; rewrite density_gam by exact Hx; rewrite mean_const by exact HP; reflexivity.
  Qed.

  Definition Kin (t : R) (x y : vec) : R :=
    if dec (exists j, (j < J0)%nat /\ t = T j) then kc (pm t) steps x y else if dec (x = y) then 1 else 0.

  Lemma Kin_rows : rows_ok supp Kin.
  Proof.
    intros t x _ Hx. unfold Kin. destruct (dec _) as [D|D].
    - apply (kc_rows supp HN (pm t) (pm_ext t) (pm_plus t) (pm_scal t) (pm_const t) steps x Hx).
    - apply (Rsum_single x (fun _ => 1) supp HN). intros C. contradiction.
  Qed.
  Lemma Kin_inv : invariant_ok fp fl supp Kin.
  Proof.
    intros t y _ Hy. unfold Kin. destruct (dec _) as [(j & Hj & ->)|D].
    - apply (kc_inv supp HN (pm (T j)) (pm_ext _) (pm_const _) steps (gam fp fl (T j))); [|exact Hy]. intros phi. apply pm_inv, Hj.
    - rewrite (Rsum_ext _ (fun x => if dec (y = x) then gam fp fl t x else 0)).
      + apply (Rsum_single y (gam fp fl t) supp HN). intros C. contradiction.
      + intros x _. destruct (dec (x = y)) as [A|A], (dec (y = x)) as [B|B]; try congruence; ring.
  Qed.

  (** * The inner sampler *)
  Definition inner (w : key -> W) := ud_inner d (fun k i => nrm (w k) i) (fun k => unif (w k)) pp lp L steps.
  Definition st_at (w : key -> W) (t : R) (k : key) (v : vec) (j : nat) :=
    ud_inner_states d (fun k i => nrm (w k) i) (fun k => unif (w k)) pp lp None L t st k v v0 j.
  Definition ival (w : key -> W) (t : R) (k : key) (v : vec) : vec := h_value (core (fst (st_at w t k v steps))).
  Definition ikeys (k : key) : list key := path_keys (ud_next_key L) (ud_draw_keys L) steps (KSplit k 3 0).

  Lemma ikeys_derived k q : In q (ikeys k) -> derived k q.
  Proof.
    intros H. apply (derived_trans _ (KSplit k 3 0)); [repeat constructor|].
    apply (path_keys_derived (ud_next_key L) (ud_draw_keys L)) in H; [exact H|apply hmc_next|apply hmc_draws_derived].
  Qed.

  Notation hstep := (fun t => hmc_step unif nrm d L pg lg t par0).
  Lemma hstep_supp t w z k : In (fst z) supp -> In (fst (hstep t w z k)) supp.
  Proof.
    intros Hz. unfold hmc_step. change (ou_decay par0) with 0. rewrite refresh0. cbn [h_stepsize].
    set (y := (fst z, (nrm (w (KSplit k 2 1)) : vec))).
    destruct (dec (In (fst (tr t y)) supp)) as [D|D]; [destruct (Rltb _ _); [exact D|exact Hz]|].
    rewrite (accept_off t y _ Hz D). unfold Rltb. destruct (Rlt_dec _ _) as [C|C]; [|exact Hz].
    pose proof (Hunif (w (KSplit (KSplit (KSplit k 2 0) (S L) 0) 2 1))). lra.
  Qed.

  Lemma st_at_ok w t k v j : In v supp ->
    let c := st_at w t k v j in coh pg lg t (core (fst c)) /\ par (snd c) = par0 /\ In (h_value (core (fst c))) supp.
  Proof.
    intros Hv. unfold st_at, ud_inner_states. cbv zeta.
    change (ud_update d (fun k i => nrm (w k) i) pp lp t L (fun k => unif (w k))) with (HmcLawProofs.up unif nrm d L pg lg t w).
    generalize (up_step unif nrm d L pg lg t par0 (U_ninf t) w). generalize (HmcLawProofs.up unif nrm d L pg lg t w). intros F HF.
    induction j as [|j IH].
    - cbn [iterate]. unfold ud_startup. cbn [fst snd core par]. split; [apply coherent_at_value|]. split; [reflexivity|].
      unfold at_value. destruct (pg v), (lg v). exact Hv.
    - destruct IH as (C & Pa & I). cbn [iterate]. set (c := iterate _ j _) in *. clearbody c.
      destruct (HF (fst c) (snd c) C Pa) as (C' & P' & _ & _ & O).
      split; [exact C'|]. split; [exact P'|]. apply (f_equal fst) in O. unfold obs at 1 in O. cbn [fst] in O. rewrite O.
      apply hstep_supp. exact I.
  Qed.

  Lemma inner_ok w j k v : In v supp -> In (ival w (T j) k v) supp
    /\ exists al fk, inner w (T j) st k v = ((ival w (T j) k v, pot (T j) (ival w (T j) k v), al), fk).
  Proof.
    intros Hv. destruct (st_at_ok w (T j) k v steps Hv) as (C & _ & I). split; [exact I|].
    eexists; eexists. unfold inner, ud_inner. cbv zeta. f_equal. f_equal. f_equal.
    transitivity (U (T j) (ival w (T j) k v)); [|apply U_in; exact I].
    exact (coh_pot pg lg (T j) _ C).
  Qed.

  Lemma uniform_zero : uniform_ok P unif 0.
  Proof.
    intros g. rewrite (mean_fext _ _ (fun _ => g false)); [rewrite mean_const by exact HP; ring|].
    intros x. unfold Rltb. destruct (Rlt_dec _ _); [|reflexivity]. pose proof (Hunif x). lra.
  Qed.

  Lemma ival_drawn j k v : (j < J0)%nat -> In v supp ->
    drawn P (ikeys k) (fun w => ival w (T j) k v) (mean (kernel_law supp Kin (T j) v)).
  Proof.
    intros Hj Hv. set (t := T j).
    assert (H : drawn P (ikeys k) (fun w => path (hstep t) (ud_next_key L) w steps (v, v0) (KSplit k 3 0))
                  (chain_mean (hmc_kernel d (U t) (G t) st P nrm L 0) steps (v, v0))).
    { apply (path_drawn_upto P HP (hstep t) (ud_next_key L) (ud_draw_keys L) (hmc_kernel d (U t) (G t) st P nrm L 0) (fun _ z => In (fst z) supp) steps)
        with (i := 0%nat); [| | | | | |lia].
      - intros i w z k' Hz. apply hstep_supp, Hz.
      - intros i z k' Hz _. apply (hmc_step_drawn P HP unif nrm d L pg lg t par0). intros u. change (ou_decay par0) with 0. rewrite refresh0. cbn [h_stepsize]. cbv zeta.
        destruct (dec (In (fst (tr t (fst z, (nrm u : vec)))) supp)) as [D|D]; [apply Hu; assumption|].
        rewrite (accept_off t (fst z, (nrm u : vec)) _ Hz D). apply uniform_zero.
      - apply hmc_next.
      - apply hmc_fresh.
      - apply hmc_draws_derived.
      - exact Hv. }
    apply (drawn_map P _ _ (fun r => fst (nth steps r (v0, v0)))) in H.
    apply (drawn_law P _ _ _ (mean (kernel_law supp Kin t v))) in H.
    - eapply drawn_ext; [|exact H]. intros w. cbv beta.
      pose proof (run_path unif nrm d L pg lg t par0 (U_ninf t) v v0 k (S steps) w) as R. cbn [Nat.sub] in R. rewrite Nat.sub_0_r in R.
      rewrite <- R. rewrite mcmc_run_spec by (intros; apply up_iter). rewrite map_map. cbn [ud_startup snd iter].
      cbn [Nat.sub]. rewrite ?Nat.sub_0_r.
      match goal with |- fst (nth steps (map ?f (seq 0 (S steps))) (v0, v0)) = _ =>
        rewrite (nth_indep _ (v0, v0) (f 0%nat)) by (rewrite map_length, seq_length; lia); rewrite (map_nth f) end.
      rewrite seq_nth by lia. reflexivity.
    - intros phi. cbv beta. unfold mean at 1, kernel_law. rewrite map_map. cbn [fst snd]. symmetry.
      transitivity (chain_mean (pm t) steps v (fun r => phi (nth steps r v0))).
      + rewrite <- (kc_mean supp HN (pm t) (pm_ext t) (pm_plus t) (pm_scal t) (pm_const t) steps v phi Hv).
        apply Rsum_ext. intros y _. unfold Kin. destruct (dec _) as [D|D]; [reflexivity|]. exfalso. apply D. exists j. split; [exact Hj|reflexivity].
      + rewrite <- (chain_lump (hmc_kernel d (U t) (G t) st P nrm L 0) (pm t) fst) with (x := (v, v0)).
        * apply chain_any_ext.
          -- intros x f g E. apply hmc_ext. exact E.
          -- intros r. f_equal. change v0 with (fst (v0, v0)) at 1. rewrite map_nth. reflexivity.
        * intros x f g E. apply hmc_ext. exact E.
        * intros x f. apply pm_lump.
  Qed.

  (** * The run *)
  Definition after (k : key) : key := KSplit k 3 0.
  Lemma after_derived k : derived k (after k).
  Proof. repeat constructor. Qed.

  Definition pr (v : vec) : xr := fst (pg v).
  Definition gp (v : vec) (_ : key) : vec := snd (pg v).
  Definition gl (v : vec) (_ : key) : vec := snd (lg v).
  Definition start_values (w : key -> W) (k : key) : list vec := map (fun i => psamp (w (KSplit (KSplit k 2 1) n i))) (seq 0 n).

  Lemma start_sim w k : sim (ud_smc_startup pp lp (scheduled l) None (start_values w k) (KSplit k 2 0) st) (begin psamp fl pr gp gl l st n after w k).
  Proof.
    assert (EL : ud_lik lp = lik fl).
    { apply functional_extensionality. intros v. apply functional_extensionality. intros k'. apply Hlik. }
    unfold begin. fold (start_values w k). unfold ud_smc_startup. rewrite EL.
    change (ud_prior pp) with (prior' pr). change (fun (v : vec) (_ : key) => snd (pg v)) with gp. change (fun (v : vec) (_ : key) => snd (lg v)) with gl.
    split; cbn [fst snd].
    - unfold smc_startup. cbn [fst].
      set (E := smc_prestart _ _ _ _ _ _). rewrite !map_map. apply map_ext_in. intros [p lw0] H. apply in_combine_l in H.
      unfold E, smc_prestart in H. apply in_map_iff in H. destruct H as ([i v] & <- & _). unfold ud_startup, er, at_value, tpot.
      cbn [fst snd u_part core alpha p_value p_prior p_lik p_pot p_temp p_lw p_ess p_lnc]. change (gp v) with (fun _ : key => snd (pg v)).
      change (gl v) with (fun _ : key => snd (lg v)). pose proof (Hlik v) as Hl. unfold lik, prior', pr. destruct (pg v), (lg v) as [lv gv]. cbn [fst] in Hl. subst lv. reflexivity.
    - reflexivity.
  Qed.
End Law.
