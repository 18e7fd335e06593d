(** C121: the law of one update of online smoothing with backward simulation. *)
From Coq Require Import Reals List Arith Bool Lia Lra.
From Verif Require Import XR Keys HmcModel WeightsModel WeightsSpec McmcSpec SmcModel FilterModel FilterSpec UnbSpec UnbProofs KexpSpec KexpProofs
  BackModel BackSpec BackProofs BackProps BackLawSpec RejLawProofs BackLawProofs BackLawProps OnlineModel OnlineLawSpec OnlineLawProofs OnlineLawProps
  OnlineUpdSpec OnlineUpdProofs FfbsProps.
Import ListNotations.
Open Scope R_scope.

(** What an update leaves: the trajectories, and the particles and log weights of
    the filter run beside them; [None] for an exception. *)
Definition after_update {X Tm} (r : option (bsmoothed (X := X) (Tm := Tm))) : option (list (list X) * list (list X) * list (list xr)) :=
  option_map (fun r => (b_value r, value (b_filter r), log_weight (b_filter r))) r.

Lemma firstn_last {A} s (l : list A) d : (s < length l)%nat -> last (firstn (S s) l) d = nth s l d.
Proof.
  revert l. induction s as [|s IH]; intros [|a l] H; cbn in H; try lia; [reflexivity|].
  cbn [nth]. rewrite <- (IH l) by lia. destruct l as [|c l]; [cbn in H; lia|]. reflexivity.
Qed.

(** Any filter with finite weight increments, any number of filter particles and
    of trajectories, threshold, lag and key; full backward resampling
    ([maxrej = 0]) or rejection with a valid bound.  Without rejection the number
    of trajectories is not four: with four, the key of the filter's resampling is
    also that of the second stitched trajectory (C71). *)
Theorem C121_update :
  forall (W : Type) (P : law W) (sm : sampler W) (X Tm : Type) (dx : X) (dt : Tm) (tp : X -> Tm -> X -> Tm -> R)
         (psamp : X -> Tm -> obs -> Tm -> W -> X) (inc : X -> Tm -> X -> obs -> Tm -> R) (F : (key -> W) -> pfilter X Tm)
         (plaw : X -> law X) (q : bsmoothed (X := X) (Tm := Tm)) (y : obs) (t1 : Tm) (k : key) (lag : nat) (thr : R) (maxrej : nat) (b infl : R) (T n : nat),
  let pot := fun x t x' t' => Fin (tp x t x' t') in
  let p := b_filter q in
  let t0 := last (times p) dt in
  let m := length (last (value p) []) in
  let res := xltb (last (ess p) NaN) (Fin (thr * INR m)) in
  let ts := times p ++ [t1] in
  let s := (length ts - lag - 1)%nat in
  let step := fun w => propagate_particle_filter dx (fun k => s_cat sm (w k)) (F w) p y t1 (KSplit k 4 1) thr false in
  let window := fun w mf => backward_simulation dx pot (fun k => s_cat sm (w k)) (fun k => s_cat1 sm (w k)) (fun k => s_unif sm (w k)) (fun k => s_unifn sm (w k)) dt
    (skipn s (value mf)) (skipn s (log_weight mf)) (skipn s ts) (KSplit k 4 2) (Some n) maxrej b infl in
  prob P -> sampler_ok sm ->
  (* the filter *)
  (forall w x t y t' k, proposal_sample (F w) x t y t' k = psamp x t y t' (w k)) ->
  (forall w x t x' y t', intermediate_log_weight (F w) x t x' y t' = Fin (inc x t x' y t')) ->
  (* the state before: [S T] times, [n] trajectories *)
  filter_rows (S T) (value p) (log_weight p) -> length (times p) = S T -> ess p <> [] ->
  b_times q = times p -> length (b_value q) = S T -> (forall row, In row (b_value q) -> length row = n) ->
  (0 < n)%nat -> (0 < lag)%nat -> (0 < maxrej)%nat \/ n <> 4%nat ->
  (* the draws have the right laws wherever the update makes them *)
  (forall x f, mean P (fun z => f (psamp x t0 y t1 z)) = mean (plaw x) f) ->
  (res = true -> forall phi, mean P (fun x => phi (s_cat sm x (last (log_weight p) []) m)) = expect (repeat (cat_law (last (log_weight p) [])) m) phi) ->
  (forall w mf, step w = Some mf ->
     cat_faithful P sm (drawn_from dx dt pot (skipn s (value mf)) (skipn s (log_weight mf)) (skipn s ts) (S T - s)) n
     /\ ((0 < maxrej)%nat -> unif_faithful P sm (ratio dx dt pot (skipn s (value mf)) (skipn s (log_weight mf)) (skipn s ts) (S T - s) b) n)) ->
  ((lag < length ts)%nat -> forall w mf w' sim evs, step w = Some mf -> window w' mf = Some (sim, evs) ->
     cat_faithful P sm (stitch_from dx pot (nth s ts dt) (nth (S s) ts dt) (nth 0 sim []) (nth 1 sim []) (repeat (Fin 0) n) (nth s (b_value q) [])) n
     /\ ((0 < maxrej)%nat -> unif_faithful P sm (stitch_ratio dx pot (nth s ts dt) (nth (S s) ts dt) (nth 1 sim []) (repeat (Fin 0) n) (nth s (b_value q) []) b) n)) ->
  (* the bound of the rejection sampler is valid *)
  ((0 < maxrej)%nat -> 0 < b /\ forall x t x' t', exp (- tp x t x' t') <= b) ->
  has_law P (fun w => after_update (smoother_bs dx dt pot (fun k => s_cat sm (w k)) (fun k => s_cat1 sm (w k)) (fun k => s_unif sm (w k)) (fun k => s_unifn sm (w k))
               (F w) q y t1 k lag thr maxrej b infl))
    (fun phi => update_mean dx dt pot (value p) (log_weight p) plaw (fun x x' => Fin (inc x t0 x' y t1)) res
                  (b_value q) ts lag n (fun rows V' W' => phi (Some (rows, V', W')))).
Proof.
  intros W P sm X Tm dx dt tp psamp inc F plaw q y t1 k lag thr maxrej b infl T n pot p t0 m res ts s step window
    HP Hsm HF1 HF2 Hrows Ht He Hbt Hbv Hbr Hn Hlag H4 Hplaw Hres Hwin Hst Hb.
  assert (Lts : length ts = S (S T)) by (unfold ts; rewrite app_length, Ht; cbn; lia).
  (* the step of the filter *)
  assert (Hstep : forall w, exists mf, step w = Some mf /\ times mf = ts /\ ess mf <> [] /\ filter_rows (S (S T)) (value mf) (log_weight mf)).
  { intros w. eexists. split; [apply (prop_eq sm Hsm dx dt psamp inc F HF1 HF2 p y t1 (KSplit k 4 1) thr T Hrows Ht He w)|].
    split; [reflexivity|]. split; [unfold adv; cbn [ess]; intros E; apply app_eq_nil in E; destruct E; discriminate|].
    pose proof (startx_length sm Hsm dx p (KSplit k 4 1) thr T Hrows Ht w) as Lx.
    destruct (startw_ok p thr T Hrows Ht) as [Lw Ow].
    apply adv_rows; [exact Hrows|congruence|exact Ow|]. rewrite Lx. apply (prp_length dt psamp p y t1 (KSplit k 4 1) T Hrows Ht). exact Lx. }
  assert (Dstep := step_drawn P HP sm Hsm dx dt psamp inc F HF1 HF2 p y t1 (KSplit k 4 1) thr T plaw Hrows Ht He Hplaw Hres).
  fold step in Dstep.
  set (simulated := fun w mf => option_map fst (window w mf)).
  set (L := fun (mf : particles X Tm) phi => smoothing_mean dx dt pot (skipn s (value mf)) (skipn s (log_weight mf)) (skipn s ts) (S T - s) n (fun rows => phi (Some rows))).
  assert (Hs : (s <= S T)%nat) by (unfold s; lia).
  assert (Dwin : forall mf, (exists w, step w = Some mf) -> drawn P (window_keys n maxrej (S T - s) (KSplit k 4 2)) (fun w => simulated w mf) (L mf)).
  { intros mf [w E]. destruct (Hwin w mf E) as [HC HU]. destruct (Hstep w) as (mf' & E' & _ & _ & HR). assert (mf' = mf) by congruence. subst mf'.
    apply (window_drawn P HP sm Hsm dx dt tp b infl maxrej Hb); [apply skip_rows; assumption|exact HC|exact HU]. }
  assert (Apart : forall x, In x (step_keys p (KSplit k 4 1)) -> In x (window_keys n maxrej (S T - s) (KSplit k 4 2) ++ stitch_keys n maxrej k) -> False).
  { intros x H1 H2. apply step_keys_derived in H1. apply in_app_or in H2. destruct H2 as [H2|H2].
    - apply window_keys_derived in H2. apply (incomp_children k 4 1 4 2 ltac:(lia) x H1 H2).
    - apply (stitch_keys_apart n maxrej k 1 x H4 H2 H1). }
  assert (Apart2 : forall x, In x (window_keys n maxrej (S T - s) (KSplit k 4 2)) -> In x (stitch_keys n maxrej k) -> False).
  { intros x H1 H2. apply window_keys_derived in H1. apply (stitch_keys_apart n maxrej k 2 x H4 H2 H1). }
  assert (Nbv : b_value q <> []) by (intros E; rewrite E in Hbv; discriminate).
  assert (Lxl : length (last (b_value q) []) = n).
  { apply Hbr. rewrite (app_removelast_last [] Nbv) at 2. apply in_or_app. right. left. reflexivity. }
  (* shape of the law *)
  assert (Elaw : forall (g : list (list X) -> list (list xr) -> R) (B : Type) (f : option (particles X Tm) -> B) phi,
    (forall mf, times mf = ts -> phi (f (Some mf)) = g (value mf) (log_weight mf)) ->
    step_law dx p thr plaw (fun x0 lw0 x1 => Some (adv dx dt inc p y t1 x0 lw0 x1)) (fun o => phi (f o))
    = step_mean dx (value p) (log_weight p) plaw (fun x x' => Fin (inc x t0 x' y t1)) res g).
  { intros g B f phi Hg. unfold step_law, step_mean, moved_mean. cbv zeta. fold m. fold res. destruct res.
    - apply expect_fext. intros idx. apply expect_fext. intros x1. rewrite Hg by reflexivity. reflexivity.
    - apply expect_fext. intros x1. rewrite Hg by reflexivity. reflexivity. }
  apply (drawn_has_law P (step_keys p (KSplit k 4 1) ++ (window_keys n maxrej (S T - s) (KSplit k 4 2) ++ stitch_keys n maxrej k))).
  unfold update_mean. destruct (Nat.leb_spec (length ts) lag) as [C|C].
  - (* fewer times than the lag: no stitching *)
    assert (S0 : s = 0%nat) by (unfold s; lia).
    apply (drawn_ext P) with (a := fun w => match step w with Some mf => option_map (fun sim => (sim, value mf, log_weight mf)) (simulated w mf) | None => None end).
    { intros w. unfold after_update, smoother_bs. fold p. fold (step w). destruct (Hstep w) as (mf & E & Et & Ee & _). rewrite E, Hbt.
      rewrite (at_last_last (b_value q) [] Nbv), Lxl. fold ts. cbv zeta.
      replace (Nat.leb (lag + 1) (length ts)) with false by (symmetry; apply Nat.leb_gt; lia).
      unfold simulated, window. rewrite S0. cbn [skipn]. rewrite Et.
      destruct (backward_simulation _ _ _ _ _ _ _ _ _ _ _ _ _ _ _) as [[sim evs]|]; [|reflexivity].
      rewrite (at_last_last (ess mf) NaN Ee). reflexivity. }
    set (G := fun (o : option (particles X Tm)) w => match o with Some mf => option_map (fun sim => (sim, value mf, log_weight mf)) (simulated w mf) | None => None end).
    set (N := fun (o : option (particles X Tm)) phi => match o with
      | Some mf => smoothing_mean dx dt pot (value mf) (log_weight mf) ts (S T) n (fun rows => phi (Some (rows, value mf, log_weight mf)))
      | None => phi None end).
    eapply drawn_law; [|apply (drawn_bind P _ _ step G _ N Dstep Apart)].
    + intros phi. apply (Elaw (fun V' W' => smoothing_mean dx dt pot V' W' ts (length ts - 1) n (fun rows => phi (Some (rows, V', W')))) R (fun o => N o phi) (fun r => r)).
      intros mf _. unfold N. rewrite Lts. cbn [Nat.sub]. reflexivity.
    + intros w. destruct (Hstep w) as (mf & E & Et & Ee & HR). rewrite E. unfold G, N.
      apply (drawn_incl P (window_keys n maxrej (S T - s) (KSplit k 4 2))); [apply incl_appl, incl_refl|].
      pose proof (drawn_map P _ _ (option_map (fun sim => (sim, value mf, log_weight mf))) _ (Dwin mf (ex_intro _ w E))) as D.
      eapply drawn_law; [|exact D]. intros phi. unfold L. rewrite S0. reflexivity.
  - (* stitching *)
    assert (Es : (S T - s = lag)%nat) by (unfold s; lia). assert (Hs' : (s < S T)%nat) by (unfold s; lia).
    set (early := firstn (S s) (b_value q)).
    assert (El : last early [] = nth s (b_value q) []) by (apply firstn_last; lia).
    assert (Ne : early <> []) by (unfold early; destruct (b_value q); [discriminate|discriminate]).
    assert (Le : length (last early []) = n) by (rewrite El; apply Hbr, nth_In; lia).
    set (joined := fun w sim => stitch sm dx pot early (nth s ts dt) sim (repeat (Fin 0) n) (nth (S s) ts dt) maxrej b infl k w).
    apply (drawn_ext P) with (a := fun w => match step w with
      | Some mf => match simulated w mf with Some sim => option_map (fun rows => (rows, value mf, log_weight mf)) (joined w sim) | None => None end
      | None => None end).
    { intros w. unfold after_update, smoother_bs. fold p. fold (step w). destruct (Hstep w) as (mf & E & Et & Ee & _). rewrite E, Hbt.
      rewrite (at_last_last (b_value q) [] Nbv), Lxl. fold ts. cbv zeta.
      replace (Nat.leb (lag + 1) (length ts)) with true by (symmetry; apply Nat.leb_le; lia).
      fold s. rewrite Et. unfold simulated, window.
      destruct (backward_simulation _ _ _ _ _ _ _ _ _ _ _ _ _ _ _) as [[sim evs]|]; [|reflexivity]. cbn [option_map fst].
      unfold joined, stitch. rewrite Nat.add_1_r. fold early. unfold zeros.
      replace (nth_clamp (length ts - lag) ts dt) with (nth (S s) ts dt) by (unfold nth_clamp; f_equal; unfold s; lia).
      destruct (fixed_lag_stitching _ _ _ _ _ _ _ _ _ _ _ _ _ _ _) as [[v e]|]; [|reflexivity].
      rewrite (at_last_last (ess mf) NaN Ee). reflexivity. }
    set (J := fun (mf : particles X Tm) (o : option (list (list X))) w => match o with Some sim => option_map (fun rows => (rows, value mf, log_weight mf)) (joined w sim) | None => None end).
    set (NJ := fun (mf : particles X Tm) (o : option (list (list X))) phi => match o with
      | Some sim => stitch_mean dx pot (nth s ts dt) (nth (S s) ts dt) early sim (repeat (Fin 0) n) (fun rows => phi (Some (rows, value mf, log_weight mf)))
      | None => phi None end).
    set (G := fun (o : option (particles X Tm)) w => match o with Some mf => J mf (simulated w mf) w | None => None end).
    set (N := fun (o : option (particles X Tm)) phi => match o with Some mf => L mf (fun o => NJ mf o phi) | None => phi None end).
    eapply drawn_law; [|apply (drawn_bind P _ _ step G _ N Dstep Apart)].
    + intros phi. apply (Elaw (fun V' W' => smoothing_mean dx dt pot (skipn s V') (skipn s W') (skipn s ts) lag n (fun sim =>
        stitch_mean dx pot (nth s ts dt) (nth (S s) ts dt) early sim (repeat (Fin 0) n) (fun rows => phi (Some (rows, V', W'))))) R (fun o => N o phi) (fun r => r)).
      intros mf _. unfold N, L. rewrite Es. reflexivity.
    + intros w. destruct (Hstep w) as (mf & E & Et & Ee & HR). rewrite E. unfold G, N.
      apply (drawn_bind P _ _ (fun w => simulated w mf) (J mf) _ (NJ mf) (Dwin mf (ex_intro _ w E)) Apart2).
      intros w'.
      assert (HR' : filter_rows (S (S T - s)) (skipn s (value mf)) (skipn s (log_weight mf))) by (apply skip_rows; [exact HR|lia]).
      destruct (Hsm w') as (S1 & S2 & S3).
      destruct (C44_support X Tm dx dt pot (fun k => s_cat sm (w' k)) (fun k => s_cat1 sm (w' k)) (fun k => s_unif sm (w' k)) (fun k => s_unifn sm (w' k))
        (skipn s (value mf)) (skipn s (log_weight mf)) (skipn s ts) (KSplit k 4 2) (Some n) maxrej b infl (S T - s) S2 S1 S3
        ltac:(intros; left; eexists; reflexivity) HR' (all_reachable dx dt tp _ _ _ (skipn s ts) HR')) as (sim & evs & Ew & Lsim & _ & Hsim & _).
      assert (Ew' : window w' mf = Some (sim, evs)) by exact Ew.
      unfold simulated. rewrite Ew'. cbn [option_map fst]. unfold J, NJ.
      destruct (Hst C w mf w' sim evs E Ew') as [HC HU].
      destruct (Hsim 0%nat ltac:(lia)) as [L0 _]. destruct (Hsim 1%nat ltac:(lia)) as [L1 _].
      rewrite Es in Lsim. destruct sim as [|xv [|x1 rest]]; [discriminate|cbn in Lsim; lia|]. cbn [nth] in L0, L1, HC, HU.
      apply (drawn_map P _ (fun w => joined w (xv :: x1 :: rest)) (option_map (fun rows => (rows, value mf, log_weight mf)))
        (fun phi => stitch_mean dx pot (nth s ts dt) (nth (S s) ts dt) early (xv :: x1 :: rest) (repeat (Fin 0) n) (fun rows => phi (Some rows)))).
      unfold joined. apply (stitch_drawn P HP sm Hsm dx tp b infl maxrej Hb); try assumption; rewrite El; assumption.
Qed.
Print Assumptions C121_update.

(** Two states; a move to [true] has transition density 1 from [true] and 1/2
    from [false], a move to [false] has density 1.  One time so far, two filter
    particles and two trajectories, one in each state; the filter's proposals stay
    with probability 2/3 and all moves have the same weight.  Lag 1: the update
    stitches at the first time. *)
Definition up_tp (x : bool) (_ : nat) (x' : bool) (_ : nat) : R := if x' then (if x then 0 else ln 2) else 0.
Definition up_filter (w : key -> list nat) : pfilter bool nat :=
  PFilter (fun _ _ _ => true) (fun _ _ _ => Fin 0) (fun x t _ t' k => hmm_samp x t t' (w k)) (fun _ _ _ _ _ => Fin 0).
Definition up_state : bsmoothed (X := bool) (Tm := nat) :=
  BSmoothed [[true; false]] [0%nat] [[0]] (Particles [[true; false]] [[Fin 0; Fin 0]] [0%nat] (Rows [[0]]) [Fin 2]) [Fin 0; Fin 0] (Fin 2) [].
Definition up_kept (r : option (list (list bool) * list (list bool) * list (list xr))) : R :=
  match r with Some ([[true; false]; [true; false]], _, _) => 1 | _ => 0 end.

(** log weights the six-sided die can draw from *)
Definition six_pair (lw : list xr) : Prop := exists u v, lw = [Fin u; Fin v] /\ (u = v \/ u = v + ln 2 \/ v = u + ln 2).
Lemma six_pairs (L : list xr -> Prop) n : (0 < n)%nat -> (forall lw, L lw -> six_pair lw) -> cat_faithful (joint (repeat six n)) six_sampler L n.
Proof.
  intros Hn H lw Hl. destruct (H lw Hl) as (u & v & -> & D). split; intros phi.
  - cbn [s_cat1 six_sampler]. rewrite (six_first n (fun x => phi (six_pick x [Fin u; Fin v])) Hn). apply six_two, D.
  - apply six_two_n, D.
Qed.
Lemma six_coins (Q : R -> Prop) n : (0 < n)%nat -> (forall q, Q q -> q = 1 \/ q = / 2) -> unif_faithful (joint (repeat six n)) six_sampler Q n.
Proof.
  intros Hn H. destruct (six_uniform n Hn) as [U1 U2].
  assert (I : forall q, Q q -> ratio 0%nat 0%nat stay_pot stay_V stay_W [0; 1]%nat 1 1 q).
  { intros q Hq. destruct (H q Hq) as [->| ->]; [exists 0%nat, 0%nat, 0%nat|exists 0%nat, 0%nat, 1%nat];
      (split; [lia|]); (split; [apply (stay_particle 0); [lia|auto]|]); (split; [apply (stay_particle 1); [lia|auto]|]);
      rewrite stay_density; cbn; field. }
  split; [intros q phi Hq; apply U1, I, Hq|]. intros qs phi Lq F. apply U2; [exact Lq|]. eapply Forall_impl; [|exact F]. exact I.
Qed.

Lemma up_exp x t x' t' : exp (- up_tp x t x' t') = if x' then (if x then 1 else / 2) else 1.
Proof. unfold up_tp. destruct x', x; rewrite ?Ropp_0, ?exp_0, ?exp_Ropp, ?exp_ln by lra; reflexivity. Qed.
Notation up_pot := (fun x t x' t' => Fin (up_tp x t x' t')).

(** the filter's particles after the update *)
Lemma up_step w k thr mf :
  propagate_particle_filter true (fun k => s_cat six_sampler (w k)) (up_filter w) (b_filter up_state) [0] 1%nat (KSplit k 4 1) thr false = Some mf ->
  exists a b c d : bool, value mf = [[a; b]; [c; d]] /\ log_weight mf = [[Fin 0; Fin 0]; [Fin 0; Fin 0]].
Proof.
  unfold propagate_particle_filter. cbn -[six_sampler xltb].
  destruct (xltb _ _); cbn -[six_sampler]; intros H; injection H as <-; cbn; rewrite ?Rplus_0_r; eexists _, _, _, _; split; reflexivity.
Qed.

Definition up_w (x x' : bool) : R := if x' then (if x then 1 else / 2) else 1.
Lemma up_row a b c d f :
  mean (particle_law true [[a; b]; [c; d]] [[Fin 0; Fin 0]; [Fin 0; Fin 0]] 1) f = (f c + f d) / 2.
Proof. unfold mean, particle_law. cbn. rewrite exp_0. field. Qed.
Lemma up_back a b c d x f :
  mean (back_law true 0%nat up_pot [[a; b]; [c; d]] [[Fin 0; Fin 0]; [Fin 0; Fin 0]] [0; 1]%nat 0 x) f
  = (up_w a x * f a + up_w b x * f b) / (up_w a x + up_w b x).
Proof.
  unfold mean, back_law, back_weight, density. cbn -[up_tp]. rewrite !up_exp, exp_0. unfold up_w.
  destruct x, a, b; field.
Qed.
Lemma up_stitch xa xb ea eb G H :
  stitch_mean true up_pot 0%nat 1%nat [[true; false]] [[xa; xb]; [ea; eb]] [Fin 0; Fin 0] (fun rows => up_kept (Some (rows, G, H)))
  = let s x z := (if Bool.eqb ea z then up_w x ea / up_w xa ea else 0) + (if Bool.eqb eb z then up_w x eb / up_w xb eb else 0) in
    let t x := up_w x ea / up_w xa ea + up_w x eb / up_w xb eb in
    s true true / t true * (s false false / t false).
Proof.
  unfold stitch_mean. cbn [nth last map List.tl expect app]. unfold mean, stitch_law, stitch_weight, density. cbn -[up_tp up_kept].
  rewrite !up_exp, !exp_0. fold (up_w xa ea) (up_w xb eb) (up_w true ea) (up_w true eb) (up_w false ea) (up_w false eb).
  destruct xa, xb, ea, eb; cbn; field.
Qed.

(** given the filter's particles: the last row must hold both states, and then
    the probability that the stitched trajectories are the ones that stay is 1/6 *)
Lemma up_inner a b c d G H :
  smoothing_mean true 0%nat up_pot [[a; b]; [c; d]] [[Fin 0; Fin 0]; [Fin 0; Fin 0]] [0; 1]%nat 1 2 (fun sim =>
    stitch_mean true up_pot 0%nat 1%nat [[true; false]] sim [Fin 0; Fin 0] (fun rows => up_kept (Some (rows, G, H)))) = if xorb c d then 1 / 6 else 0.
Proof.
  unfold smoothing_mean. cbn [repeat expect back_mean map app]. rewrite !up_row, ?up_back. cbn [expect].
  rewrite ?up_back, !up_stitch. destruct a, b, c, d; cbv [xorb Bool.eqb up_w]; cbv zeta; field.
Qed.

Lemma up_samp x t0 t1 f : mean (joint (repeat six 2)) (fun z => f (hmm_samp x t0 t1 z)) = mean [(x, 2 / 3); (negb x, 1 / 3)] f.
Proof.
  unfold hmm_samp. rewrite (six_first 2 (fun i => f (if (i <? 4)%nat then x else negb x))) by lia. rewrite mean_six. unfold mean. cbn. field.
Qed.

(** Threshold 1/2: no resampling, as the effective sample size is 2.  Threshold
    2: resampling. *)
Example C121_example : forall maxrej k thr v, thr = 1 / 2 /\ v = 5 / 54 \/ thr = 2 /\ v = 1 / 12 ->
  has_mean (joint (repeat six 2)) (fun w => up_kept (after_update (smoother_bs true 0%nat up_pot
      (fun k => s_cat six_sampler (w k)) (fun k => s_cat1 six_sampler (w k)) (fun k => s_unif six_sampler (w k)) (fun k => s_unifn six_sampler (w k))
      (up_filter w) up_state [0] 1%nat k 1 thr maxrej 1 (101 / 100)))) v.
Proof.
  intros maxrej k thr v Hv. pose proof ln2_pos as P2.
  destruct (C121_update _ (joint (repeat six 2)) six_sampler bool nat true 0%nat up_tp (fun x t _ t' z => hmm_samp x t t' z) (fun _ _ _ _ _ => 0) up_filter
    (fun x => [(x, 2 / 3); (negb x, 1 / 3)]) up_state [0] 1%nat k 1 thr maxrej 1 (101 / 100) 0 2 (six_prob 2) six_ok) as [ks D];
    cbn [b_filter up_state value log_weight times ess b_times b_value last length app Nat.sub skipn nth repeat] in *; try reflexivity; try discriminate; try lia.
  - split; [reflexivity|]. split; [reflexivity|]. intros s Hs. assert (s = 0%nat) as -> by lia. cbn [nth]. split; [reflexivity|]. apply (proj2 (proj2 stay_rows) 0%nat). lia.
  - intros row [<-|[]]. reflexivity.
  - intros x f. apply up_samp.
  - intros _ phi. apply (six_two_n 0 0 2). left. reflexivity.
  - intros w mf E. destruct (up_step w k thr mf E) as (a & b & c & d & -> & ->). split.
    + apply (six_pairs _ 2); [lia|]. intros lw [(s & Hs & ->)|(s & x1 & Hs & _ & ->)].
      * exists 0, 0. destruct s as [|[|s]]; [auto|auto|lia].
      * assert (s = 0%nat) as -> by lia. cbn. eexists _, _. split; [reflexivity|]. destruct x1, a, b; cbn; lra.
    + intros _. apply (six_coins _ 2); [lia|]. intros q (s & x0 & x1 & _ & _ & _ & ->). unfold density. rewrite up_exp. destruct x1, x0; lra.
  - intros _ w mf w' sim evs _ _. split.
    + apply (six_pairs _ 2); [lia|]. intros lw [->|(x0 & _ & ->)]; cbn; eexists _, _; (split; [reflexivity|]);
        destruct (nth 0 (nth 0 sim []) true), (nth 1 (nth 0 sim []) true), (nth 0 (nth 1 sim []) true), (nth 1 (nth 1 sim []) true); try destruct x0; cbn; lra.
    + intros _. apply (six_coins _ 2); [lia|]. intros q (x0 & a & _ & _ & _ & ->). unfold density. rewrite up_exp. destruct (nth a _ true), x0; lra.
  - intros _. split; [lra|]. intros x t x' t'. rewrite up_exp. destruct x', x; lra.
  - exists ks. specialize (D up_kept). cbv beta in D.
    assert (EV : update_mean true 0%nat up_pot [[true; false]] [[Fin 0; Fin 0]] (fun x => [(x, 2 / 3); (negb x, 1 / 3)]) (fun _ _ => Fin 0)
      (xltb (Fin 2) (Fin (thr * INR 2))) [[true; false]] [0; 1]%nat 1 2 (fun rows V' W' => up_kept (Some (rows, V', W'))) = v).
    { assert (M : forall a b : bool, moved_mean true [[true; false]] [[Fin 0; Fin 0]] (fun x => [(x, 2 / 3); (negb x, 1 / 3)]) (fun _ _ => Fin 0) [a; b] [Fin 0; Fin 0]
        (fun V' W' => smoothing_mean true 0%nat up_pot V' W' [0; 1]%nat 1 2 (fun sim =>
          stitch_mean true up_pot 0%nat 1%nat [[true; false]] sim [Fin 0; Fin 0] (fun rows => up_kept (Some (rows, V', W')))))
        = if xorb a b then 5 / 54 else 4 / 54).
      { intros a b. unfold moved_mean, moved_weights. cbn [map expect removelast app length seq nth xadd]. rewrite Rplus_0_r.
        unfold mean. cbn [map fst snd Rsum]. rewrite !up_inner. destruct a, b; cbn [xorb negb]; lra. }
      unfold update_mean, step_mean. cbn [length Nat.leb Nat.sub skipn nth firstn last repeat].
      destruct Hv as [[-> ->]|[-> ->]].
      - replace (xltb (Fin 2) (Fin (1 / 2 * INR 2))) with false by (symmetry; apply Rltb_false; cbn; lra). rewrite M. reflexivity.
      - replace (xltb (Fin 2) (Fin (2 * INR 2))) with true by (symmetry; apply Rltb_true; cbn; lra).
        cbn [expect map]. unfold cat_law. unfold mean. cbn -[moved_mean smoothing_mean]. rewrite !M, exp_0. cbn [xorb]. field. }
    rewrite <- EV. exact D.
Qed.
