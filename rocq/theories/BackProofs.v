(** Proofs for backward simulation. *)
From Coq Require Import Reals List Arith Bool Lia Lra.
From Verif Require Import XR Keys HmcModel WeightsSpec McmcModel McmcSpec McmcProofs SmcModel
  FilterModel FilterSpec FilterProofs BackModel BackSpec.
Import ListNotations.
Open Scope R_scope.

Definition nonneg_fin (x : xr) : Prop := exists d, x = Fin d /\ 0 <= d.

Lemma xmaxl_ok l : l <> [] -> Forall nonneg_fin l ->
  exists m, xmaxl l = Fin m /\ 0 <= m /\ In (Fin m) l /\ forall d, In (Fin d) l -> d <= m.
Proof.
  intros Hne H. induction H as [|x l [d [-> Hd]] Hl IH]; [congruence|].
  destruct l as [|y l].
  - exists d. cbn. split; [reflexivity|]. split; [exact Hd|]. split; [auto|].
    intros e [[= <-]|[]]. lra.
  - destruct (IH ltac:(discriminate)) as (m & Em & Hm & Im & Bm).
    change (xmaxl (Fin d :: y :: l)) with (xmax2 (Fin d) (xmaxl (y :: l))). rewrite Em.
    cbn [xmax2 xltb]. destruct (Rltb d m) eqn:E.
    + apply Rltb_true in E. exists m. split; [reflexivity|]. split; [exact Hm|]. split; [right; exact Im|].
      intros e [[= <-]|He]; [lra|apply Bm, He].
    + apply Rltb_false in E. exists d. split; [reflexivity|]. split; [exact Hd|]. split; [left; reflexivity|].
      intros e [[= <-]|He]; [lra|]. specialize (Bm e He). lra.
Qed.

Lemma count_true_le l : (count_true l <= length l)%nat.
Proof. unfold count_true. induction l as [|[] l IH]; cbn in *; lia. Qed.
Lemma count_true_zero l : count_true l = 0%nat -> forall i, nth i l false = false.
Proof.
  unfold count_true. induction l as [|[] l IH]; intros H i; cbn in *; [destruct i; reflexivity|lia|].
  destruct i; [reflexivity|apply IH, H].
Qed.

Section Map4.
  Context {A : Type}.
  Variable f : nat -> bool -> A -> key -> A * xr * bool * key.
  Lemma map4_length l1 : forall i l2 l3, length l2 = length l1 -> length l3 = length l1 ->
    length (map4 f i l1 l2 l3) = length l1.
  Proof.
    induction l1; intros i [|] [|] H1 H2; try discriminate; cbn; [reflexivity|].
    rewrite IHl1; cbn in *; lia.
  Qed.
  Lemma map4_nth l1 db da dk d : forall i l2 l3 j, length l2 = length l1 -> length l3 = length l1 ->
    (j < length l1)%nat ->
    nth j (map4 f i l1 l2 l3) d = f (i + j)%nat (nth j l1 db) (nth j l2 da) (nth j l3 dk).
  Proof.
    induction l1; intros i [|] [|] j H1 H2 Hj; try discriminate; cbn in Hj; [lia|].
    destruct j; cbn; [rewrite Nat.add_0_r; reflexivity|].
    rewrite IHl1 by (cbn in *; lia). f_equal. lia.
  Qed.
End Map4.

Section Rej.
  Context {A : Type}.
  Variable da : A.
  Variable pick : key -> A.
  Variable pick_n : key -> nat -> list A.
  Variable dens : nat -> A -> xr.
  Variable full : nat -> key -> A.
  Variable uniform : key -> R.
  Variable uniform_n : key -> nat -> list R.
  Variable inflation : R.
  Hypothesis Hinfl : 1 <= inflation.
  Hypothesis Hdens : forall i a, nonneg_fin (dens i a).

  Variables (n n0 : nat) (k : key) (maxrej : nat) (init_bound : R).
  Hypothesis Hn : (0 < n)%nat.
  Hypothesis Hpick : length (pick_n (KSplit k 3 0) n) = n.
  Hypothesis Hunif : length (uniform_n (KSplit k 3 1) n) = n.

  Definition basekey (i : nat) : key := KSplit (KSplit k 3 2) n i.

  (** where a candidate and its uniform come from *)
  Definition source (i : nat) (a : A) (u : R) : Prop :=
    (a = nth i (pick_n (KSplit k 3 0) n) da /\ u = nth i (uniform_n (KSplit k 3 1) n) 0)
    \/ exists k', derived (basekey i) k' /\ a = pick (KSplit k' 3 1) /\ u = uniform (KSplit k' 3 2).

  (** loop invariant *)
  Definition rinv (b0 : R) (st : rstate (A := A)) : Prop :=
    length (not_yet st) = n /\ length (sampled st) = n /\ length (rkeys st) = n
    /\ (exists b, bound st = Fin b /\ b0 <= b
        /\ forall i, (i < n)%nat -> nth i (not_yet st) true = false ->
           exists u, source i (nth i (sampled st) da) u /\ passes dens b i (nth i (sampled st) da) u)
    /\ (forall i, (i < n)%nat -> derived (basekey i) (nth i (rkeys st) (KRoot 0)))
    /\ (1 <= riter st)%nat /\ (evals st <= n * riter st)%nat.

  Lemma proposal_all_inv b0 st : 0 < b0 -> rinv b0 st -> rinv b0 (proposal_all pick dens uniform inflation st).
  Proof.
    intros Hb0 (L1 & L2 & L3 & (b & Eb & Hb & Hacc) & Hk & Hit & Hev).
    unfold proposal_all. rewrite Eb.
    set (f := proposal_cond pick dens uniform (Fin b)).
    set (tup := map4 f 0 (not_yet st) (sampled st) (rkeys st)).
    assert (Lt : length tup = n) by (unfold tup; rewrite map4_length; lia).
    set (dtup := (da, Fin 0, false, KRoot 0)).
    assert (Nt : forall i, (i < n)%nat -> nth i tup dtup
      = f i (nth i (not_yet st) true) (nth i (sampled st) da) (nth i (rkeys st) (KRoot 0))).
    { intros i Hi. unfold tup. rewrite (map4_nth f (not_yet st) true da (KRoot 0)) by lia. reflexivity. }
    set (ds := map (fun x : A * xr * bool * key => snd (fst (fst x))) tup).
    assert (Fd : Forall nonneg_fin ds).
    { apply Forall_forall. intros x Hx. unfold ds in Hx. apply in_map_iff in Hx. destruct Hx as (z & <- & Hz).
      apply (In_nth _ _ dtup) in Hz. destruct Hz as (i & Hi & <-). rewrite Nt by lia. unfold f, proposal_cond.
      destruct (nth i (not_yet st) true); cbn; [apply Hdens|exists 0; split; [reflexivity|lra]]. }
    destruct (xmaxl_ok ds) as (m & Em & Hm & Im & Bm).
    { intros E. apply (f_equal (@length xr)) in E. unfold ds in E. rewrite map_length, Lt in E. cbn in E. lia. }
    { exact Fd. }
    rewrite Em. cbn [xltb xmul].
    assert (Hdi : forall i, (i < n)%nat -> exists d, snd (fst (fst (nth i tup dtup))) = Fin d /\ d <= m).
    { intros i Hi. assert (Hin : In (snd (fst (fst (nth i tup dtup)))) ds).
      { unfold ds. apply in_map_iff. exists (nth i tup dtup). split; [reflexivity|apply nth_In; lia]. }
      rewrite Forall_forall in Fd. destruct (Fd _ Hin) as (d & Ed & _). exists d. split; [exact Ed|].
      apply Bm. rewrite <- Ed. exact Hin. }
    split; [cbn [not_yet]; destruct (Rltb b m); rewrite map_length; exact Lt|].
    split; [cbn [sampled]; rewrite map_length; exact Lt|].
    split; [cbn [rkeys]; rewrite map_length; exact Lt|].
    split; [|split; [|split]].
    - cbn [bound not_yet sampled]. destruct (Rltb b m) eqn:Er.
      + apply Rltb_true in Er. exists (m * inflation). split; [reflexivity|]. split; [nra|].
        intros i Hi Hf. rewrite (nth_map_in _ _ i dtup) in Hf by lia. discriminate.
      + apply Rltb_false in Er. exists b. split; [reflexivity|]. split; [exact Hb|].
        intros i Hi Hf. rewrite (nth_map_in _ _ i dtup) in Hf by lia.
        rewrite (nth_map_in _ _ i dtup) by lia.
        destruct (Hdi i Hi) as (d & Ed & Hd). rewrite Nt in * by exact Hi. unfold f, proposal_cond in *.
        destruct (nth i (not_yet st) true) eqn:En; cbn [fst snd] in *.
        * exists (uniform (KSplit (nth i (rkeys st) (KRoot 0)) 3 2)). split.
          { right. exists (nth i (rkeys st) (KRoot 0)). split; [apply Hk, Hi|]. split; reflexivity. }
          { exists d. split; [exact Ed|]. split; [lra|].
            rewrite Ed in Hf. cbn [xquot xdiv] in Hf. destruct (Req_EM_T b 0); [lra|]. cbn [xltb] in Hf.
            apply Rltb_false in Hf. exact Hf. }
        * apply Hacc; [exact Hi|exact En].
    - intros i Hi. cbn [rkeys]. rewrite (nth_map_in _ _ i dtup) by lia. rewrite Nt by exact Hi.
      unfold f, proposal_cond. destruct (nth i (not_yet st) true); cbn [snd]; [constructor|]; apply Hk, Hi.
    - cbn [riter]. lia.
    - cbn [evals riter]. assert (Hc := count_true_le (not_yet st)). rewrite L1 in Hc. nia.
  Qed.

  Lemma rej_loop_inv b0 fuel : forall st, 0 < b0 -> rinv b0 st ->
    rinv b0 (rej_loop pick dens uniform inflation fuel maxrej st).
  Proof.
    induction fuel; intros st Hb H; cbn; [exact H|].
    destruct (continue maxrej st); [|exact H]. apply IHfuel; [exact Hb|]. apply proposal_all_inv; assumption.
  Qed.

  (** the fuel does not run out, and the counter stays below the maximum *)
  Lemma rej_loop_stops fuel : forall st, (maxrej <= fuel + riter st)%nat ->
    continue maxrej (rej_loop pick dens uniform inflation fuel maxrej st) = false.
  Proof.
    clear Hpick Hunif Hn Hdens Hinfl. induction fuel; intros st H; cbn.
    - unfold continue. destruct (Nat.ltb_spec (riter st) maxrej); [lia|]. apply andb_false_r.
    - destruct (continue maxrej st) eqn:E; [|exact E]. apply IHfuel. cbn. lia.
  Qed.
  Lemma rej_loop_iter fuel : forall st, (riter st <= Nat.max 1 maxrej)%nat ->
    (riter (rej_loop pick dens uniform inflation fuel maxrej st) <= Nat.max 1 maxrej)%nat.
  Proof.
    clear Hpick Hunif Hn Hdens Hinfl.
    induction fuel; intros st H; cbn; [exact H|]. destruct (continue maxrej st) eqn:E; [|exact H].
    apply IHfuel. unfold continue in E. apply andb_prop in E. destruct E as [_ E]. apply Nat.ltb_lt in E.
    change (S (riter st) <= Nat.max 1 maxrej)%nat. lia.
  Qed.

  Definition d0 : list xr := map (fun ia => dens (fst ia) (snd ia)) (combine (seq 0 n) (pick_n (KSplit k 3 0) n)).

  Lemma d0_nth i : (i < n)%nat -> nth i d0 NaN = dens i (nth i (pick_n (KSplit k 3 0) n) da).
  Proof.
    intros Hi. unfold d0. rewrite (nth_map_in _ _ i (0%nat, da)) by (rewrite combine_length, seq_length; lia).
    rewrite combine_nth by (rewrite seq_length; lia). rewrite seq_nth by exact Hi. reflexivity.
  Qed.

  Lemma d0_fin : Forall nonneg_fin d0.
  Proof.
    apply Forall_forall. intros x Hx. unfold d0 in Hx. apply in_map_iff in Hx. destruct Hx as (z & <- & _). apply Hdens.
  Qed.

  (** the prerun gives a positive bound when the given one is positive or a
      prerun candidate has positive density *)
  Lemma rej_start_inv : 0 <= init_bound ->
    (0 < init_bound \/ exists i d, (i < n)%nat /\ dens i (nth i (pick_n (KSplit k 3 0) n) da) = Fin d /\ 0 < d) ->
    exists b0, 0 < b0 /\ init_bound <= b0 /\ rinv b0 (rej_start pick_n dens uniform_n inflation n k init_bound).
  Proof.
    intros Hib0 Hib. unfold rej_start. fold d0.
    assert (Ld : length d0 = n) by (unfold d0; rewrite map_length, combine_length, seq_length; lia).
    destruct (xmaxl_ok d0) as (m & Em & Hm & Im & Bm).
    { intros E. rewrite E in Ld. cbn in Ld. lia. }
    { exact d0_fin. }
    rewrite Em. cbn [xltb xmul].
    set (b := if Rltb init_bound m then m * inflation else init_bound).
    assert (Eb : (if Rltb init_bound m then Fin (m * inflation) else Fin init_bound) = Fin b)
      by (unfold b; destruct (Rltb init_bound m); reflexivity).
    rewrite Eb.
    assert (Hb : 0 < b /\ init_bound <= b /\ m <= b).
    { unfold b. destruct (Rltb init_bound m) eqn:E.
      - apply Rltb_true in E. nra.
      - apply Rltb_false in E. split; [|lra]. destruct Hib as [Hib|(i & d & Hi & Ed & Hd)]; [exact Hib|].
        rewrite <- d0_nth in Ed by exact Hi.
        assert (d <= m) by (apply Bm; rewrite <- Ed; apply nth_In; lia). lra. }
    exists b. split; [apply Hb|]. split; [apply Hb|]. unfold rinv. cbn [not_yet sampled bound rkeys riter evals].
    assert (Lc : length (combine d0 (uniform_n (KSplit k 3 1) n)) = n) by (rewrite combine_length; lia).
    split; [rewrite map_length; exact Lc|]. split; [exact Hpick|]. split; [apply split_keys_length|].
    split; [|split; [|split; lia]].
    - exists b. split; [reflexivity|]. split; [lra|].
      intros i Hi Hf. exists (nth i (uniform_n (KSplit k 3 1) n) 0). split; [left; split; reflexivity|].
      rewrite (nth_map_in _ _ i (NaN, 0)) in Hf by lia. rewrite combine_nth in Hf by lia. cbn [fst snd] in Hf.
      rewrite d0_nth in Hf by exact Hi.
      destruct (Hdens i (nth i (pick_n (KSplit k 3 0) n) da)) as (d & Ed & Hd).
      exists d. split; [exact Ed|]. assert (d <= m).
      { apply Bm. rewrite <- Ed, <- d0_nth by exact Hi. apply nth_In. lia. }
      split; [lra|]. rewrite Ed in Hf. cbn [xquot xdiv] in Hf. destruct (Req_EM_T b 0); [lra|]. cbn [xltb] in Hf.
      apply Rltb_false in Hf. exact Hf.
    - intros i Hi. rewrite split_keys_nth by exact Hi. constructor.
  Qed.

  Lemma rejection_ok : 0 <= init_bound ->
    (0 < init_bound \/ exists i d, (i < n)%nat /\ dens i (nth i (pick_n (KSplit k 3 0) n) da) = Fin d /\ 0 < d) ->
    let r := rejection pick pick_n dens full uniform uniform_n inflation n n0 k maxrej init_bound in
    length (fst r) = n
    /\ (snd r <= n * Nat.max 1 maxrej + n0 * n)%nat
    /\ exists b, 0 < b /\ init_bound <= b /\ forall i, (i < n)%nat ->
       (exists u, source i (nth i (fst r) da) u /\ passes dens b i (nth i (fst r) da) u)
       \/ (exists k', derived (basekey i) k' /\ nth i (fst r) da = full i k').
  Proof.
    intros Hib0 Hib. destruct (rej_start_inv Hib0 Hib) as (b0 & Hb0 & Hbb & Hst).
    unfold rejection. set (st0 := rej_start pick_n dens uniform_n inflation n k init_bound) in *.
    assert (Hit := rej_loop_iter maxrej st0 ltac:(apply Nat.le_max_l)).
    assert (Hinv := rej_loop_inv b0 maxrej st0 Hb0 Hst).
    set (st := rej_loop pick dens uniform inflation maxrej maxrej st0) in *.
    destruct Hinv as (L1 & L2 & L3 & (b & Eb & Hb & Hacc) & Hk & _ & Hev). cbv zeta. cbn [fst snd].
    set (g := fun i (nya : bool) a k => (if nya then full i k else a, Fin 0, false, k)).
    assert (Lm : length (map4 g 0 (not_yet st) (sampled st) (rkeys st)) = n) by (rewrite map4_length; lia).
    split; [rewrite map_length; exact Lm|]. split.
    { assert (Hc := count_true_le (not_yet st)). rewrite L1 in Hc. nia. }
    exists b. split; [lra|]. split; [lra|]. intros i Hi.
    rewrite (nth_map_in _ _ i (da, Fin 0, false, KRoot 0)) by lia.
    rewrite (map4_nth g _ true da (KRoot 0)) by lia. unfold g. cbn [fst].
    destruct (nth i (not_yet st) true) eqn:E.
    - right. exists (nth i (rkeys st) (KRoot 0)). split; [apply Hk, Hi|reflexivity].
    - left. apply Hacc; [exact Hi|exact E].
  Qed.

  (** when fewer than the maximum number of rounds were needed, no target was
      left to full resampling *)
  Lemma rejection_stops :
    let st := rej_loop pick dens uniform inflation maxrej maxrej (rej_start pick_n dens uniform_n inflation n k init_bound) in
    (riter st < maxrej)%nat -> forall i, nth i (not_yet st) false = false.
  Proof.
    intros st Hlt. assert (E := rej_loop_stops maxrej (rej_start pick_n dens uniform_n inflation n k init_bound) ltac:(cbn; lia)).
    fold st in E. unfold continue in E. apply andb_false_iff in E. destruct E as [E|E].
    - apply Nat.ltb_ge in E. apply count_true_zero. lia.
    - apply Nat.ltb_ge in E. lia.
  Qed.
End Rej.

(** * Support, whatever the densities *)
Section Support.
  Context {A : Type}.
  Variable da : A.
  Variable pick : key -> A.
  Variable pick_n : key -> nat -> list A.
  Variable dens : nat -> A -> xr.
  Variable full : nat -> key -> A.
  Variable uniform : key -> R.
  Variable uniform_n : key -> nat -> list R.
  Variable inflation : R.
  Variable P : A -> Prop.
  Hypothesis Ppick : forall k, P (pick k).

  Variables (n n0 : nat) (k : key) (maxrej : nat) (init_bound : R).
  Hypothesis Pfull : forall i k, (i < n)%nat -> P (full i k).
  Hypothesis Hpick : length (pick_n (KSplit k 3 0) n) = n.
  Hypothesis Ppickn : Forall P (pick_n (KSplit k 3 0) n).
  Hypothesis Hunif : length (uniform_n (KSplit k 3 1) n) = n.

  Definition sinv (st : rstate (A := A)) : Prop :=
    length (not_yet st) = n /\ length (sampled st) = n /\ length (rkeys st) = n
    /\ (forall i, (i < n)%nat -> P (nth i (sampled st) da))
    /\ (evals st <= n * riter st)%nat.

  Lemma proposal_all_sinv st : sinv st -> sinv (proposal_all pick dens uniform inflation st).
  Proof.
    intros (L1 & L2 & L3 & Hp & Hev). unfold proposal_all.
    set (f := proposal_cond pick dens uniform (bound st)).
    set (tup := map4 f 0 (not_yet st) (sampled st) (rkeys st)).
    assert (Lt : length tup = n) by (unfold tup; rewrite map4_length; lia).
    set (dtup := (da, Fin 0, false, KRoot 0)).
    assert (Nt : forall i, (i < n)%nat -> nth i tup dtup
      = f i (nth i (not_yet st) true) (nth i (sampled st) da) (nth i (rkeys st) (KRoot 0))).
    { intros i Hi. unfold tup. rewrite (map4_nth f (not_yet st) true da (KRoot 0)) by lia. reflexivity. }
    split; [cbn [not_yet]; destruct (xltb _ _); rewrite map_length; exact Lt|].
    split; [cbn [sampled]; rewrite map_length; exact Lt|].
    split; [cbn [rkeys]; rewrite map_length; exact Lt|]. split.
    - intros i Hi. cbn [sampled]. rewrite (nth_map_in _ _ i dtup) by lia. rewrite Nt by exact Hi.
      unfold f, proposal_cond. destruct (nth i (not_yet st) true); cbn [fst]; [apply Ppick|apply Hp, Hi].
    - cbn [evals riter]. assert (Hc := count_true_le (not_yet st)). rewrite L1 in Hc. nia.
  Qed.

  Lemma rej_loop_sinv fuel : forall st, sinv st -> sinv (rej_loop pick dens uniform inflation fuel maxrej st).
  Proof.
    induction fuel; intros st H; cbn; [exact H|].
    destruct (continue maxrej st); [|exact H]. apply IHfuel, proposal_all_sinv, H.
  Qed.

  Lemma rejection_support :
    let r := rejection pick pick_n dens full uniform uniform_n inflation n n0 k maxrej init_bound in
    length (fst r) = n /\ (forall i, (i < n)%nat -> P (nth i (fst r) da))
    /\ (snd r <= n * Nat.max 1 maxrej + n0 * n)%nat.
  Proof.
    unfold rejection. set (st0 := rej_start pick_n dens uniform_n inflation n k init_bound).
    assert (S0 : sinv st0).
    { unfold st0, rej_start, sinv. cbn [not_yet sampled rkeys riter evals].
      split; [rewrite map_length, combine_length, map_length, combine_length, seq_length; lia|].
      split; [exact Hpick|]. split; [apply split_keys_length|]. split; [|lia].
      intros i Hi. rewrite Forall_forall in Ppickn. apply Ppickn, nth_In. lia. }
    assert (Hit := rej_loop_iter pick dens uniform inflation maxrej maxrej st0 ltac:(apply Nat.le_max_l)).
    assert (Hinv := rej_loop_sinv maxrej st0 S0).
    set (st := rej_loop pick dens uniform inflation maxrej maxrej st0) in *.
    destruct Hinv as (L1 & L2 & L3 & Hp & Hev). cbv zeta. cbn [fst snd].
    set (g := fun i (nya : bool) a k => (if nya then full i k else a, Fin 0, false, k)).
    assert (Lm : length (map4 g 0 (not_yet st) (sampled st) (rkeys st)) = n) by (rewrite map4_length; lia).
    split; [rewrite map_length; exact Lm|]. split.
    - intros i Hi. rewrite (nth_map_in _ _ i (da, Fin 0, false, KRoot 0)) by lia.
      rewrite (map4_nth g _ true da (KRoot 0)) by lia. unfold g. cbn [fst].
      destruct (nth i (not_yet st) true); [apply Pfull; lia|apply Hp, Hi].
    - assert (Hc := count_true_le (not_yet st)). rewrite L1 in Hc. nia.
  Qed.
End Support.

(** * Backward simulation *)
Section Back.
  Context {X Tm : Type}.
  Variable dx : X.
  Variable dt : Tm.
  Variable pot : X -> Tm -> X -> Tm -> xr.
  Variable categorical : key -> list xr -> nat -> list nat.
  Variable categorical1 : key -> list xr -> nat.
  Variable uniform : key -> R.
  Variable uniform_n : key -> nat -> list R.
  Hypothesis Hcat : categorical_n_ok categorical.
  Hypothesis Hcat1 : categorical1_ok categorical1.
  Hypothesis Hun : forall k n, length (uniform_n k n) = n.
  Hypothesis Hpot : forall x t x' t', potential_value (pot x t x' t').

  Lemma lw_ok_nonempty lw : lw_ok lw -> lw <> [].
  Proof. intros [_ H] ->. inversion H. Qed.

  (** an exact conditional draw *)
  Lemma full_single_ok x0 t x1 t1 lw k : length lw = length x0 -> lw_ok lw ->
    (exists x, weighted_particle dx x0 lw x /\ finite (pot x t x1 t1)) ->
    let x := full_resample_single dx pot categorical1 x0 t x1 t1 lw k in
    weighted_particle dx x0 lw x /\ finite (pot x t x1 t1).
  Proof.
    intros L [Hlw _] (x & (i & Hi & Ex & Hw) & Hx). cbv zeta. unfold full_resample_single.
    set (lw' := map _ (combine lw x0)).
    assert (L' : length lw' = length x0) by (unfold lw'; rewrite map_length, combine_length; lia).
    assert (N : forall j, (j < length x0)%nat ->
      nth j lw' NInf = xsub (nth j lw NInf) (pot (nth j x0 dx) t x1 t1)).
    { intros j Hj. unfold lw'. rewrite (nth_map_in _ _ j (NInf, dx)) by (rewrite combine_length; lia).
      rewrite combine_nth by exact L. reflexivity. }
    assert (O : lw_ok lw').
    { split.
      - apply Forall_forall. intros y Hy. apply (In_nth _ _ NInf) in Hy. destruct Hy as (j & Hj & <-).
        rewrite N by lia. rewrite Forall_forall in Hlw. assert (Hj' : In (nth j lw NInf) lw) by (apply nth_In; lia).
        destruct (Hlw _ Hj') as [->|[w ->]]; destruct (Hpot (nth j x0 dx) t x1 t1) as [[q ->]| ->]; cbn;
          try (left; reflexivity). right. eexists; reflexivity.
      - apply Exists_exists. exists (nth i lw' NInf). split; [apply nth_In; lia|]. rewrite N by exact Hi.
        destruct Hw as [w ->]. rewrite <- Ex. destruct Hx as [q ->]. eexists; reflexivity. }
    destruct (Hcat1 k lw' (lw_ok_nonempty _ O)) as [Hr Hf]. specialize (Hf O).
    rewrite L' in Hr. rewrite N in Hf by exact Hr. set (j := categorical1 k lw') in *.
    assert (Hj' : In (nth j lw NInf) lw) by (apply nth_In; lia). rewrite Forall_forall in Hlw.
    split.
    - exists j. split; [exact Hr|]. split; [reflexivity|].
      destruct (Hlw _ Hj') as [E|E]; [|exact E]. rewrite E in Hf.
      destruct (Hpot (nth j x0 dx) t x1 t1) as [[q Eq]|Eq]; rewrite Eq in Hf; destruct Hf as [z Hz]; discriminate.
    - destruct (Hpot (nth j x0 dx) t x1 t1) as [Q|Eq]; [exact Q|]. rewrite Eq in Hf.
      destruct (Hlw _ Hj') as [E|[w E]]; rewrite E in Hf; destruct Hf as [z Hz]; discriminate.
  Qed.

  (** categorical picks *)
  Lemma pick_ok x0 lw k : length lw = length x0 -> lw_ok lw ->
    weighted_particle dx x0 lw (nth (categorical1 k lw) x0 dx).
  Proof.
    intros L O. destruct (Hcat1 k lw (lw_ok_nonempty _ O)) as [Hr Hf].
    exists (categorical1 k lw). split; [lia|]. split; [reflexivity|]. apply Hf, O.
  Qed.
  Lemma pick_n_ok x0 lw k n : length lw = length x0 -> lw_ok lw ->
    length (take dx x0 (categorical k lw n)) = n
    /\ Forall (weighted_particle dx x0 lw) (take dx x0 (categorical k lw n)).
  Proof.
    intros L O. destruct (Hcat k lw n) as (Ln & Hr & Hf).
    { intros E. destruct (lw_ok_nonempty _ O E). }
    specialize (Hf O). split; [rewrite take_length; exact Ln|].
    apply Forall_forall. intros x Hx. unfold take in Hx. apply in_map_iff in Hx. destruct Hx as (i & <- & Hi).
    rewrite Forall_forall in Hr, Hf. exists i. rewrite <- L. split; [apply Hr, Hi|]. split; [reflexivity|apply Hf, Hi].
  Qed.

  (** what one backward step guarantees: [link j x x1] relates the particle
      drawn for target [j] to that target *)
  Definition back_step (link : nat -> X -> X -> Prop) (cost : nat) (x0 : list X) (lw : list xr) (x1 : list X)
    (r : list X * nat) : Prop :=
    length (fst r) = length x1
    /\ (forall j, (j < length x1)%nat -> weighted_particle dx x0 lw (nth j (fst r) dx)
                                       /\ link j (nth j (fst r) dx) (nth j x1 dx))
    /\ (snd r <= cost)%nat.

  Lemma full_step x0 t x1 t1 lw k c : length lw = length x0 -> lw_ok lw ->
    (forall j, (j < length x1)%nat -> exists x, weighted_particle dx x0 lw x /\ finite (pot x t (nth j x1 dx) t1)) ->
    back_step (fun _ x x' => finite (pot x t x' t1)) c x0 lw x1
      (full_resampling dx pot categorical1 x0 t x1 t1 lw k, c).
  Proof.
    intros L O Hre. unfold back_step, full_resampling. cbn [fst snd].
    assert (Lc : length (combine x1 (split_keys k (length x1) 0 (length x1))) = length x1)
      by (rewrite combine_length, split_keys_length; lia).
    split; [rewrite map_length; exact Lc|]. split; [|lia].
    intros j Hj. rewrite (nth_map_in _ _ j (dx, KRoot 0)) by lia.
    rewrite combine_nth by (rewrite split_keys_length; reflexivity). cbn [fst snd].
    apply full_single_ok; [exact L|exact O|apply Hre, Hj].
  Qed.

  Lemma rejection_step x0 t x1 t1 lw k maxrej ib infl : length lw = length x0 -> lw_ok lw ->
    (forall j, (j < length x1)%nat -> exists x, weighted_particle dx x0 lw x /\ finite (pot x t (nth j x1 dx) t1)) ->
    back_step (fun _ _ _ => True) (length x1 * Nat.max 1 maxrej + length x0 * length x1) x0 lw x1
      (rejection_resampling dx pot categorical categorical1 uniform uniform_n x0 t x1 t1 lw k maxrej ib infl).
  Proof.
    intros L O Hre. unfold rejection_resampling, back_step.
    destruct (pick_n_ok x0 lw (KSplit k 3 0) (length x1) L O) as [Ln Fn].
    destruct (rejection_support dx (fun k => nth (categorical1 k lw) x0 dx)
                (fun k n => take dx x0 (categorical k lw n))
                (fun i a => xexp (xopp (pot a t (nth i x1 dx) t1)))
                (fun i k => full_resample_single dx pot categorical1 x0 t (nth i x1 dx) t1 lw k)
                uniform uniform_n infl (weighted_particle dx x0 lw)
                (fun k => pick_ok x0 lw k L O) (length x1) (length x0) k maxrej ib) as (A1 & A2 & A3).
    { intros i k' Hi. apply full_single_ok; [exact L|exact O|apply Hre, Hi]. }
    { exact Ln. } { exact Fn. } { apply Hun. }
    split; [exact A1|]. split; [|exact A3]. intros j Hj. split; [apply A2, Hj|exact I].
  Qed.

  (** the scan from row [s] down to row 0 *)
  Lemma back_scan_ok (body : nat -> list X -> list X * nat) link (cost : nat -> nat)
    (V : list (list X)) (W : list (list xr)) n : forall s x1,
    length x1 = n -> (forall j, (j < n)%nat -> weighted_particle dx (nth s V []) (nth s W []) (nth j x1 dx)) ->
    (forall i x1, (i < s)%nat -> length x1 = n ->
       (forall j, (j < n)%nat -> weighted_particle dx (nth (S i) V []) (nth (S i) W []) (nth j x1 dx)) ->
       back_step (link i) (cost i) (nth i V []) (nth i W []) x1 (body i x1)) ->
    let outs := back_scan body (rev (seq 0 s)) x1 in
    let rows := rev (map fst outs) ++ [x1] in
    length outs = s
    /\ (forall i, (i < s)%nat -> (nth i (rev (map snd outs)) 0 <= cost i)%nat)
    /\ (forall i, (i <= s)%nat -> length (nth i rows []) = n
         /\ forall j, (j < n)%nat -> weighted_particle dx (nth i V []) (nth i W []) (nth j (nth i rows []) dx))
    /\ (forall i, (i < s)%nat -> forall j, (j < n)%nat ->
         link i j (nth j (nth i rows []) dx) (nth j (nth (S i) rows []) dx)).
  Proof.
    induction s as [|s IH]; intros x1 L1 H1 Hb; cbv zeta.
    - cbn. split; [reflexivity|]. split; [intros i Hi; lia|]. split; [|intros i Hi; lia].
      intros i Hi. assert (i = 0%nat) as -> by lia. split; [exact L1|exact H1].
    - rewrite seq_S, rev_app_distr. change ([(0 + s)%nat]) with [s]. cbn [rev app back_scan].
      destruct (Hb s x1 ltac:(lia) L1 H1) as (A1 & A2 & A3). rewrite L1 in A1.
      destruct (IH (fst (body s x1))) as (B1 & B2 & B3 & B4).
      { exact A1. } { intros j Hj. apply A2. lia. } { intros i x Hi. apply Hb. lia. }
      set (o := body s x1) in *. set (outs := back_scan body (rev (seq 0 s)) (fst o)) in *.
      cbn [length map rev]. split; [lia|].
      assert (Lr : length (rev (map fst outs) ++ [fst o]) = S s)
        by (rewrite app_length, rev_length, map_length; cbn; lia).
      assert (Le : length (rev (map snd outs)) = s) by (rewrite rev_length, map_length; lia).
      assert (Elast : forall d, nth s (rev (map fst outs) ++ [fst o]) d = fst o).
      { intros d. apply nth_last. rewrite rev_length, map_length. lia. }
      split; [|split].
      + intros i Hi. destruct (Nat.lt_ge_cases i s) as [Hs|Hs].
        * rewrite app_nth1 by lia. apply B2, Hs.
        * assert (i = s) as -> by lia. rewrite nth_last by exact Le. exact A3.
      + intros i Hi. destruct (Nat.lt_ge_cases i (S s)) as [Hs|Hs].
        * rewrite app_nth1 by lia. apply B3. lia.
        * assert (i = S s) as -> by lia. rewrite nth_last by exact Lr. split; [exact L1|exact H1].
      + intros i Hi j Hj. rewrite (app_nth1 _ [x1]) by lia.
        destruct (Nat.lt_ge_cases i s) as [Hs|Hs].
        * rewrite (app_nth1 _ [x1]) by lia. apply B4; assumption.
        * assert (i = s) as -> by lia. rewrite Elast, nth_last by exact Lr. apply A2. lia.
  Qed.

  Lemma back_sim_ok (body : list (list X) -> list (list xr) -> list Tm -> key -> nat -> list X -> list X * nat)
    link (cost : nat -> nat) V W ts n k T :
    filter_rows (S T) V W ->
    (forall i x1, (i < T)%nat -> length x1 = n ->
       (forall j, (j < n)%nat -> weighted_particle dx (nth (S i) V []) (nth (S i) W []) (nth j x1 dx)) ->
       back_step (link i) (cost i) (nth i V []) (nth i W []) x1 (body V W ts (KSplit k (S T) i) i x1)) ->
    exists out evs, back_sim dx categorical body V W ts n k = Some (out, evs)
    /\ length out = S T /\ length evs = S T
    /\ nth T out [] = take dx (nth T V []) (categorical (KSplit k (S T) T) (nth T W []) n)
    /\ nth 0 evs 1%nat = 0%nat
    /\ (forall i, (i < T)%nat -> (nth (S i) evs 0 <= cost i)%nat)
    /\ (forall i, (i <= T)%nat -> length (nth i out []) = n
         /\ forall j, (j < n)%nat -> weighted_particle dx (nth i V []) (nth i W []) (nth j (nth i out []) dx))
    /\ (forall i, (i < T)%nat -> forall j, (j < n)%nat ->
         link i j (nth j (nth i out []) dx) (nth j (nth (S i) out []) dx)).
  Proof.
    intros (LV & LW & Hr) Hb. unfold back_sim. rewrite LV.
    destruct (Hr T ltac:(lia)) as [HL HO].
    destruct (pick_n_ok (nth T V []) (nth T W []) (KSplit k (S T) T) n HL HO) as [Ln Fn].
    set (xT := take dx _ _) in *.
    destruct (back_scan_ok (fun ind => body V W ts (KSplit k (S T) ind) ind) link cost V W n T xT Ln)
      as (B1 & B2 & B3 & B4).
    { intros j Hj. rewrite Forall_forall in Fn. apply Fn, nth_In. lia. } { exact Hb. }
    set (outs := back_scan _ _ xT) in *. eexists _, _. split; [reflexivity|].
    split; [rewrite app_length, rev_length, map_length; cbn; lia|].
    split; [cbn [length]; rewrite rev_length, map_length; lia|].
    split; [apply nth_last; rewrite rev_length, map_length; exact B1|].
    split; [reflexivity|]. split; [exact B2|]. split; [exact B3|exact B4].
  Qed.
End Back.
