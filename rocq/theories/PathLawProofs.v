(** Proofs: propagating a particle filter with [resample_full] is a particle
    filter whose states are paths. *)
From Coq Require Import Reals List Bool Arith Lia Lra.
From Verif Require Import XR Keys HmcModel WeightsModel WeightsSpec SmcSpec SmcNorm UnbSpec UnbProofs
  FilterModel FilterProofs PfSpec PfProofs KexpSpec KexpProofs RejLawProofs PfLawSpec PfLawProofs PathLawSpec.
Import ListNotations.
Open Scope R_scope.

(** * Sums over paths *)
Lemma Rsum_flat {A B} (f : B -> R) (g : A -> list B) l : Rsum (map f (flat_map g l)) = Rsum (map (fun a => Rsum (map f (g a))) l).
Proof. induction l as [|a l IH]; [reflexivity|]. cbn [flat_map map]. rewrite map_app, WeightsProofs.Rsum_app, IH. reflexivity. Qed.

Lemma Rsum_one {A} (dec : forall a b : A, {a = b} + {a <> b}) (a : A) c l : NoDup l ->
  Rsum (map (fun b => if dec b a then c else 0) l) = if in_dec dec a l then c else 0.
Proof.
  induction l as [|b l IH]; intros N; [reflexivity|]. inversion N as [|? ? N1 N2]; subst. cbn [map Rsum fold_right].
  change (fold_right Rplus 0 (map (fun b0 => if dec b0 a then c else 0) l)) with (Rsum (map (fun b => if dec b a then c else 0) l)). rewrite (IH N2).
  destruct (dec b a) as [->|Ne].
  - destruct (in_dec dec a l) as [H|H]; [contradiction|]. destruct (in_dec dec a (a :: l)) as [|H']; [lra|]. destruct H'. left. reflexivity.
  - destruct (in_dec dec a l) as [H|H]; destruct (in_dec dec a (b :: l)) as [H'|H']; try lra.
    + destruct H'. right. exact H.
    + destruct H' as [H'|H']; contradiction.
Qed.

Section Words.
  Context {X : Type}.
  Variable dec : forall a b : X, {a = b} + {a <> b}.
  Variable supp : list X.
  Hypothesis Hs : NoDup supp.

  Lemma words_in m : forall p, In p (words supp m) <-> length p = m /\ incl p supp.
  Proof.
    induction m as [|m IH]; intros p; cbn [words].
    - split; [intros [<-|[]]; split; [reflexivity|intros ? []]|]. intros [L _]. destruct p; [left; reflexivity|discriminate].
    - rewrite in_flat_map. split.
      + intros (x & Hx & H). apply in_map_iff in H. destruct H as (p' & <- & H). apply IH in H. destruct H as [L I]. split; [cbn; lia|].
        intros z [<-|Hz]; auto.
      + intros [L I]. destruct p as [|x p]; [discriminate|]. exists x. split; [apply I; left; reflexivity|]. apply in_map. apply IH.
        split; [cbn in L; lia|]. intros z Hz. apply I. right. exact Hz.
  Qed.

  Definition ldec : forall a b : list X, {a = b} + {a <> b} := list_eq_dec dec.

  Lemma words_sum c m : forall b, In b (words supp m) -> Rsum (map (fun p => if ldec p b then c else 0) (words supp m)) = c.
  Proof.
    induction m as [|m IH]; intros b Hb.
    - destruct Hb as [<-|[]]. cbn. destruct (ldec [] []) as [_|N]; [lra|]. destruct N. reflexivity.
    - apply words_in in Hb. destruct Hb as [L I]. destruct b as [|x0 b]; [discriminate|].
      assert (Hb : In b (words supp m)). { apply words_in. split; [cbn in L; lia|]. intros z Hz. apply I. right. exact Hz. }
      cbn [words]. rewrite Rsum_flat. rewrite (Rsum_ext _ (fun x => if dec x x0 then c else 0)).
      + rewrite (Rsum_one dec x0 c supp Hs). destruct (in_dec dec x0 supp) as [|N]; [reflexivity|]. destruct N. apply I. left. reflexivity.
      + intros x _. rewrite map_map. destruct (dec x x0) as [->|N].
        * transitivity (Rsum (map (fun p => if ldec p b then c else 0) (words supp m))); [|apply (IH b Hb)]. apply Rsum_ext. intros p _. destruct (ldec p b) as [->|N]; destruct (ldec (x0 :: _) (x0 :: b)) as [E|E]; try reflexivity.
          -- destruct E. reflexivity.
          -- destruct N. injection E. auto.
        * rewrite (Rsum_ext _ (fun _ => 0)). { rewrite WeightsProofs.Rsum_const. lra. }
          intros p _. destruct (ldec (x :: p) (x0 :: b)) as [E|E]; [|reflexivity]. destruct N. injection E. auto.
  Qed.

  (** a step appends a state to [b] *)
  Definition ext (b : list X) (g : X -> R) (p : list X) : R :=
    match p with x :: r => if ldec r b then g x else 0 | [] => 0 end.
  Definition wsupp (T : nat) : list (list X) := flat_map (words supp) (seq 1 (S T)).

  Lemma wsupp_in T p : In p (wsupp T) <-> (1 <= length p <= S T)%nat /\ incl p supp.
  Proof.
    unfold wsupp. rewrite in_flat_map. split.
    - intros (m & Hm & H). apply in_seq in Hm. apply words_in in H. destruct H as [L I]. split; [lia|exact I].
    - intros [L I]. exists (length p). split; [apply in_seq; lia|]. apply words_in. auto.
  Qed.

  Lemma ext_sum T b g : (length b <= T)%nat -> incl b supp -> Rsum (map (ext b g) (wsupp T)) = Rsum (map g supp).
  Proof.
    intros L I. unfold wsupp. rewrite Rsum_flat.
    rewrite (Rsum_ext _ (fun m => if Nat.eq_dec m (S (length b)) then Rsum (map g supp) else 0)).
    - rewrite (Rsum_one Nat.eq_dec) by apply seq_NoDup. destruct (in_dec Nat.eq_dec _ _) as [|N]; [reflexivity|]. destruct N. apply in_seq. lia.
    - intros m Hm. apply in_seq in Hm. destruct m as [|m]; [lia|]. cbn [words]. rewrite Rsum_flat.
      destruct (Nat.eq_dec (S m) (S (length b))) as [E|N].
      + injection E as ->. apply Rsum_ext. intros x _. rewrite map_map. cbn [ext].
        apply words_sum. apply words_in. auto.
      + rewrite (Rsum_ext _ (fun _ => 0)). { rewrite WeightsProofs.Rsum_const. lra. }
        intros x _. rewrite map_map. cbn [ext]. rewrite (Rsum_ext _ (fun _ => 0)). { rewrite WeightsProofs.Rsum_const. lra. }
        intros p Hp. apply words_in in Hp. destruct (ldec p b) as [->|]; [|reflexivity]. destruct Hp. lia.
  Qed.

  Lemma ext_scal b g (h : list X -> R) p : ext b g p * h p = ext b (fun x => g x * h (x :: b)) p.
  Proof. destruct p as [|x r]; cbn [ext]; [lra|]. destruct (ldec r b) as [->|]; lra. Qed.
End Words.

(** * The filter on paths, newest state first *)
Section B.
  Context {X Tm W : Type}.
  Variable dx : X.
  Variable thr : R.
  Variable n T : nat.
  Variable isamp : obs -> Tm -> W -> X.
  Variable psamp : X -> Tm -> obs -> Tm -> W -> X.
  Variable cat : W -> list xr -> nat -> list nat.
  Variable ilw : X -> obs -> Tm -> xr.
  Variable plw : X -> Tm -> X -> obs -> Tm -> xr.

  Notation now := (hd dx).
  Definition base (pa : list X) : list X := if Nat.ltb (length pa) (S T) then pa else [].
  Definition pisamp (y : obs) (t : Tm) (z : W) : list X := [isamp y t z].
  Definition ppsamp (pa : list X) (t : Tm) (y : obs) (t' : Tm) (z : W) : list X := psamp (now pa) t y t' z :: base pa.
  Definition pilw (pa : list X) (y : obs) (t : Tm) : xr := ilw (now pa) y t.
  Definition pplw (pa : list X) (t : Tm) (pa' : list X) (y : obs) (t' : Tm) : xr := plw (now pa) t (now pa') y t'.

  Definition row (vs : list (list X)) (i : nat) : list X := map (fun pa => nth i (rev pa) dx) vs.
  (** the particles [p] record the paths of [s] *)
  Definition shows (j : nat) (p : particles X Tm) (s : marginal (list X) Tm) : Prop :=
    value p = map (row (m_value s)) (seq 0 (S j)) /\ List.Forall (fun pa => length pa = S j) (m_value s)
    /\ at_last (log_weight p) = Some (m_lw s) /\ at_last (times p) = Some (m_t s) /\ at_last (ess p) = Some (m_ess s).

  Lemma at_last_snoc {A} (l : list A) a : at_last (l ++ [a]) = Some a.
  Proof. unfold at_last. rewrite rev_app_distr. reflexivity. Qed.
  Lemma row_take vs i inds : take dx (row vs i) inds = row (take [dx] vs inds) i.
  Proof.
    unfold take, row. rewrite map_map. apply map_ext. intros a.
    assert (E : nth i (rev [dx]) dx = dx) by (destruct i as [|[|?]]; reflexivity).
    rewrite <- (map_nth (fun pa => nth i (rev pa) dx) vs [dx] a), E. reflexivity.
  Qed.
  Lemma now_row j vs : List.Forall (fun pa => length pa = S j) vs -> row vs j = map now vs.
  Proof.
    intros H. apply map_ext_in. intros pa Hp. rewrite Forall_forall in H. specialize (H pa Hp).
    destruct pa as [|x pa]; [discriminate|]. cbn [hd rev]. cbn in H. rewrite app_nth2 by (rewrite rev_length; lia).
    rewrite rev_length. replace (j - length pa)%nat with 0%nat by lia. reflexivity.
  Qed.
  Lemma value_last j vs : at_last (map (row vs) (seq 0 (S j))) = Some (row vs j).
  Proof. rewrite seq_S, map_app. apply at_last_snoc. Qed.

  Notation sf w := (stream_filter isamp psamp ilw plw w).
  Notation sf' w := (stream_filter pisamp ppsamp pilw pplw w).

  Lemma step_shows w j p s y t k : shows j p s -> length (m_value s) = n -> (j < T)%nat -> length (m_lw s) = n ->
    (forall lw, length lw = n -> length (cat (w k) lw n) = n /\ List.Forall (fun i => (i < n)%nat) (cat (w k) lw n)) ->
    exists p', propagate_particle_filter dx (fun k => cat (w k)) (sf w) p y t k thr true = Some p'
      /\ shows (S j) p' (body [dx] thr n pisamp ppsamp cat pilw pplw w s y t k).
  Proof.
    intros (V & Le & Lw & Ti & Es) Ln Hj Lm Hc.
    assert (Lr : length (row (m_value s) j) = n) by (unfold row; rewrite map_length; exact Ln).
    unfold propagate_particle_filter. rewrite Es, V, value_last, Lr.
    unfold body, filter_body. cbv zeta. rewrite Ln. set (res := xltb (m_ess s) (Fin (thr * INR n))).
    set (x0 := if res then resample_row [dx] (fun k0 => cat (w k0)) (m_value s) (m_lw s) k else m_value s).
    set (lw0 := if res then zeros n else m_lw s).
    assert (Lx : length x0 = n).
    { unfold x0. destruct res; [|exact Ln]. unfold resample_row, take. rewrite map_length, Ln. apply Hc, Lm. }
    assert (Fx : List.Forall (fun pa => length pa = S j) x0).
    { unfold x0. destruct res; [|exact Le]. unfold resample_row, take. rewrite Ln. apply Forall_forall. intros pa Hp. apply in_map_iff in Hp.
      destruct Hp as (i & <- & Hi). destruct (Hc (m_lw s) Lm) as [_ C]. rewrite Forall_forall in C. specialize (C i Hi).
      rewrite Forall_forall in Le. apply Le, nth_In. lia. }
    assert (Q : exists q, (if res then resample_particles dx (fun k0 => cat (w k0)) p k true else Some p) = Some q
      /\ value q = map (row x0) (seq 0 (S j)) /\ at_last (log_weight q) = Some lw0 /\ times q = times p /\ ess q = ess p).
    { unfold x0, lw0. destruct res.
      - unfold resample_particles. rewrite V, value_last, Lw, Lr. eexists. split; [reflexivity|]. cbn [value log_weight times ess].
        split; [|split; [apply at_last_snoc|split; reflexivity]].
        rewrite map_map. apply map_ext. intros i. unfold resample_row. rewrite Ln. apply row_take.
      - exists p. repeat split; assumption. }
    destruct Q as (q & -> & Vq & Lq & Tq & Eq). rewrite Vq, value_last, Lq, Tq, Ti.
    eexists. split; [reflexivity|]. unfold shows. cbn [value log_weight times ess m_value m_lw m_t m_ess].
    rewrite !at_last_snoc.
    set (ks := split_keys k n 0 n). assert (Lk : length ks = n) by apply split_keys_length.
    assert (Ex : propose (sf' w) x0 (m_t s) y t ks
      = map (fun xk => psamp (now (fst xk)) (m_t s) y t (w (snd xk)) :: fst xk) (combine x0 ks)).
    { unfold propose. apply map_ext_in. intros [pa kk] Hp. cbn [fst snd stream_filter proposal_sample]. unfold ppsamp, base.
      apply in_combine_l in Hp. rewrite Forall_forall in Fx. rewrite (Fx pa Hp). destruct (Nat.ltb_spec (S j) (S T)); [reflexivity|lia]. }
    set (x1 := propose (sf' w) x0 (m_t s) y t ks) in *.
    assert (L1 : length x1 = n) by (rewrite Ex, map_length, combine_length; lia).
    assert (F1 : List.Forall (fun pa => length pa = S (S j)) x1).
    { rewrite Ex. apply Forall_forall. intros pa Hp. apply in_map_iff in Hp. destruct Hp as ([pa0 kk] & <- & Hp). apply in_combine_l in Hp.
      rewrite Forall_forall in Fx. cbn [length fst]. rewrite (Fx pa0 Hp). reflexivity. }
    assert (Ey : propose (sf w) (row x0 j) (m_t s) y t ks = map now x1).
    { rewrite (now_row j x0 Fx), Ex, map_map. unfold propose. cbn [hd]. generalize x0 ks. clear. intros l0. induction l0 as [|a l IH]; intros [|k0 ks]; try reflexivity.
      cbn [map combine fst snd]. rewrite IH. reflexivity. }
    assert (Ei : increments (sf w) (row x0 j) (m_t s) (map now x1) y t = increments (sf' w) x0 (m_t s) x1 y t).
    { rewrite (now_row j x0 Fx). unfold increments. generalize x0 x1 (m_t s). clear. intros l0. induction l0 as [|a l IH]; intros [|b x1] t1; try reflexivity.
      cbn [map combine fst snd]. rewrite IH. reflexivity. }
    rewrite Ey, Ei. split; [|split; [exact F1|split; [|split]; reflexivity]].
    rewrite (seq_S (S j)), map_app. cbn [map plus]. f_equal.
    - apply map_ext_in. intros i Hi. apply in_seq in Hi. unfold row. rewrite Ex, map_map. cbn [fst snd].
      transitivity (map (fun xk : list X * key => nth i (rev (fst xk)) dx) (combine x0 ks)).
      + assert (E : length x0 = length ks) by lia. revert E. generalize x0 ks. clear. intros l0. induction l0 as [|a l IH]; intros [|k0 ks] E; cbn in *; try reflexivity; try lia. f_equal. apply IH. lia.
      + apply map_ext_in. intros [pa kk] Hp. apply in_combine_l in Hp. rewrite Forall_forall in Fx. cbn [fst rev].
        rewrite app_nth1; [reflexivity|]. rewrite rev_length, (Fx pa Hp). lia.
    - rewrite (now_row (S j) x1 F1). reflexivity.
  Qed.
End B.

(** * The law of the paths *)
Section C.
  Context {X Tm W : Type}.
  Variable dec : forall a b : X, {a = b} + {a <> b}.
  Variable dx : X.
  Variable supp : list X.
  Hypothesis Hs : NoDup supp.
  Variable P : law W.
  Hypothesis HP : prob P.
  Variable mu : X -> R.
  Variable q : X -> Tm -> obs -> Tm -> X -> R.
  Variable thr : R.
  Variable n : nat.
  Variable w0 : X -> obs -> Tm -> R.
  Variable w1 : X -> Tm -> X -> obs -> Tm -> R.
  Variable isamp : obs -> Tm -> W -> X.
  Variable psamp : X -> Tm -> obs -> Tm -> W -> X.
  Variable cat : W -> list xr -> nat -> list nat.
  Variable ilw : X -> obs -> Tm -> xr.
  Variable plw : X -> Tm -> X -> obs -> Tm -> xr.
  Variable F : pfilter X Tm.
  Hypothesis HF0 : initial_log_weight F = ilw.
  Hypothesis HF1 : intermediate_log_weight F = plw.
  Hypothesis Hw0 : forall x y t, In x supp -> ilw x y t = Fin (w0 x y t).
  Hypothesis Hw : forall x t0 x' y t, In x supp -> In x' supp -> plw x t0 x' y t = Fin (w1 x t0 x' y t).
  Hypothesis Hn : (0 < n)%nat.
  Hypothesis Hcat : forall x lw, length lw = n -> length (cat x lw n) = n /\ List.Forall (fun i => (i < n)%nat) (cat x lw n).
  Hypothesis Hiin : forall y t x, In (isamp y t x) supp.
  Hypothesis Hpin : forall x t y t' z, In x supp -> In (psamp x t y t' z) supp.
  Variables (y0 : obs) (t0 : Tm) (yts0 : list (obs * Tm)).
  Hypothesis Hil : forall phi, mean P (fun z => phi (isamp y0 t0 z)) = mean (init_law supp mu) phi.
  Hypothesis Hpl : forall x t y t' phi, In x supp -> mean P (fun z => phi (psamp x t y t' z)) = mean (prop_law supp q x t y t') phi.
  Hypothesis Hmult : forall y t r s, visited dx supp F thr n y0 t0 yts0 ((y, t) :: r) s -> resamples thr n s = true ->
    multinomial_draws n P cat (m_lw s).

  Notation now := (hd dx).
  Let T := length yts0.
  Let S' := wsupp supp T.
  Let pin := @pisamp X Tm W isamp.
  Let ppr := @ppsamp X Tm W dx T psamp.
  Let pil := @pilw X Tm dx ilw.
  Let ppl := @pplw X Tm dx plw.
  Let F' : pfilter (list X) Tm := PFilter (fun _ _ _ => [dx]) pil (fun p _ _ _ _ => p) ppl.
  Let mu' (p : list X) : R := ext dec [] mu p.
  Let q' (p : list X) (t : Tm) (y : obs) (t' : Tm) (p' : list X) : R := ext dec (base T p) (q (now p) t y t') p'.
  Let w0' (p : list X) (y : obs) (t : Tm) : R := w0 (now p) y t.
  Let w1' (p : list X) (t : Tm) (p' : list X) (y : obs) (t' : Tm) : R := w1 (now p) t (now p') y t'.

  Lemma now_in p : In p S' -> In (now p) supp.
  Proof. intros H. apply wsupp_in in H. destruct H as [L I]. destruct p as [|x p]; [cbn in L; lia|]. apply I. left. reflexivity. Qed.
  Lemma base_in p : In p S' -> (length (base T p) <= T)%nat /\ incl (base T p) supp.
  Proof.
    intros H. apply wsupp_in in H. destruct H as [L I]. unfold base. destruct (Nat.ltb_spec (length p) (S T)).
    - split; [lia|exact I].
    - split; [cbn; lia|intros ? []].
  Qed.

  Let Hw0' : forall p y t, In p S' -> pil p y t = Fin (w0' p y t).
  Proof. intros p y t H. apply Hw0, now_in, H. Qed.
  Let Hw' : forall p t p' y t', In p S' -> In p' S' -> ppl p t p' y t' = Fin (w1' p t p' y t').
  Proof. intros p t p' y t' H H'. apply Hw; apply now_in; assumption. Qed.
  Let Hiin' : forall y t z, In (pin y t z) S'.
  Proof. intros y t z. apply wsupp_in. split; [cbn; lia|]. intros x [<-|[]]. apply Hiin. Qed.
  Let Hpin' : forall p t y t' z, In p S' -> In (ppr p t y t' z) S'.
  Proof.
    intros p t y t' z H. destruct (base_in p H) as [L I]. apply wsupp_in. unfold ppr, ppsamp. split; [cbn [length]; lia|].
    intros x [<-|Hx]; [apply Hpin, now_in, H|apply I, Hx].
  Qed.
  Let Hil' : forall phi, mean P (fun z => phi (pin y0 t0 z)) = mean (init_law S' mu') phi.
  Proof.
    intros phi. transitivity (mean (init_law supp mu) (fun x => phi [x])); [exact (Hil (fun x => phi [x]))|].
    unfold mean, init_law. rewrite !map_map. cbn [fst snd].
    rewrite (Rsum_ext (fun x => mu' x * phi x) (ext dec [] (fun x => mu x * phi [x]))).
    - symmetry. apply (ext_sum dec supp Hs T); [cbn; lia|intros ? []].
    - intros p _. apply ext_scal.
  Qed.
  Let Hpl' : forall p t y t' phi, In p S' -> mean P (fun z => phi (ppr p t y t' z)) = mean (prop_law S' q' p t y t') phi.
  Proof.
    intros p t y t' phi H. transitivity (mean (prop_law supp q (now p) t y t') (fun x => phi (x :: base T p))); [exact (Hpl (now p) t y t' (fun x => phi (x :: base T p)) (now_in p H))|].
    unfold mean, prop_law. rewrite !map_map. cbn [fst snd].
    rewrite (Rsum_ext (fun x => q' p t y t' x * phi x) (ext dec (base T p) (fun x => q (now p) t y t' x * phi (x :: base T p)))).
    - symmetry. destruct (base_in p H). apply (ext_sum dec supp Hs T); assumption.
    - intros p' _. apply ext_scal.
  Qed.
  Let Hmu' : Rsum (map mu' S') = 1.
  Proof.
    transitivity (mean (init_law S' mu') (fun _ => 1)).
    - unfold mean, init_law. rewrite map_map. apply Rsum_ext. intros; cbn; lra.
    - rewrite <- Hil'. apply mean_const, HP.
  Qed.
  Let Hq' : forall p t y t', In p S' -> Rsum (map (q' p t y t') S') = 1.
  Proof.
    intros p t y t' H. transitivity (mean (prop_law S' q' p t y t') (fun _ => 1)).
    - unfold mean, prop_law. rewrite map_map. apply Rsum_ext. intros; cbn; lra.
    - rewrite <- Hpl' by exact H. apply mean_const, HP.
  Qed.

  (** the states of the last time *)
  Definition proj (s : marginal (list X) Tm) : marginal X Tm :=
    Marginal (map now (m_value s)) (m_lw s) (m_t s) (m_y s) (m_ess s).

  Lemma now_pick vs k : now (pick vs [dx] k) = pick (map now vs) dx k.
  Proof. destruct k as [|k m i]; [reflexivity|]. cbn [pick]. symmetry. exact (map_nth (hd dx) vs [dx] i). Qed.

  Lemma proj_body idx ys s y t k :
    proj (filter_body [dx] (indices idx) (with_proposals [dx] F' ys) thr n s y t k)
    = filter_body dx (indices idx) (with_proposals dx F (map now ys)) thr n (proj s) y t k.
  Proof.
    unfold filter_body. cbv zeta. cbn [proj m_value m_lw m_t m_y m_ess]. rewrite map_length.
    set (res := xltb (m_ess s) (Fin (thr * INR n))).
    set (x0 := if res then resample_row [dx] (indices idx) (m_value s) (m_lw s) k else m_value s).
    assert (E0 : (if res then resample_row dx (indices idx) (map now (m_value s)) (m_lw s) k else map now (m_value s)) = map now x0).
    { unfold x0. destruct res; [|reflexivity]. unfold resample_row, take, indices. rewrite map_map. apply map_ext. intros i.
      exact (map_nth (hd dx) (m_value s) [dx] i). }
    rewrite E0. set (ks := split_keys k _ 0 _).
    assert (E1 : propose (with_proposals dx F (map now ys)) (map now x0) (m_t s) y t ks
      = map now (propose (with_proposals [dx] F' ys) x0 (m_t s) y t ks)).
    { unfold propose. cbn [with_proposals proposal_sample]. generalize x0 ks. clear. intros l. induction l as [|a l IH]; intros [|k0 ks]; try reflexivity.
      cbn [map combine fst snd]. rewrite IH. f_equal. symmetry. apply now_pick. }
    rewrite E1. set (x1 := propose (with_proposals [dx] F' ys) x0 (m_t s) y t ks).
    assert (E2 : increments (with_proposals dx F (map now ys)) (map now x0) (m_t s) (map now x1) y t
      = increments (with_proposals [dx] F' ys) x0 (m_t s) x1 y t).
    { unfold increments. cbn [with_proposals intermediate_log_weight]. rewrite HF1. generalize x0 x1 (m_t s). clear. intros l. induction l as [|a l IH]; intros [|b m] t1; try reflexivity.
      cbn [map combine fst snd]. rewrite IH. reflexivity. }
    rewrite E2. reflexivity.
  Qed.

  Lemma visited_proj r s : visited [dx] S' F' thr n y0 t0 yts0 r s -> visited dx supp F thr n y0 t0 yts0 r (proj s).
  Proof.
    induction 1 as [vs k s L I E|y t r s idx ys k V IH L1 L2 L3 I].
    - apply (visited_start dx supp F thr n y0 t0 yts0 (map now vs) k).
      + rewrite map_length. exact L.
      + intros x Hx. apply in_map_iff in Hx. destruct Hx as (p & <- & Hp). apply now_in, I, Hp.
      + unfold initiate_particles, last_marginal in *. cbn [value FilterModel.log_weight times observed ess at_last rev app] in *.
        injection E as <-. unfold proj. cbn [m_value m_lw m_t m_y m_ess]. cbn [with_initial initial_sample initial_log_weight F']. rewrite HF0.
        rewrite !map_map.
        assert (E : forall l, map (fun k => pick (map now vs) dx k) l = map (fun k => now (pick vs [dx] k)) l).
        { intros l. apply map_ext. intros a. symmetry. apply now_pick. }
        rewrite E. f_equal. f_equal.
        * apply map_ext. intros a. rewrite <- now_pick. reflexivity.
        * f_equal. apply map_ext. intros a. rewrite <- now_pick. reflexivity.
    - rewrite proj_body. apply visited_step; try assumption.
      + rewrite map_length. exact L3.
      + intros x Hx. apply in_map_iff in Hx. destruct Hx as (p & <- & Hp). apply now_in, I, Hp.
  Qed.

  Let Hmult' : forall y t r s, visited [dx] S' F' thr n y0 t0 yts0 ((y, t) :: r) s -> resamples thr n s = true ->
    multinomial_draws n P cat (m_lw s).
  Proof. intros y t r s V Rs. apply (Hmult y t r (proj s)); [apply visited_proj, V|exact Rs]. Qed.

  Notation sf w := (stream_filter isamp psamp ilw plw w).
  Notation scan' := (scan [dx] thr n pin ppr cat pil ppl).
  Notation body' := (body [dx] thr n pin ppr cat pil ppl).

  Lemma shows_weights j (p : particles X Tm) (s : marginal (list X) Tm) : shows dx j p s ->
    last_weights p = weights (m_lw s) /\ low_ess thr n p = resamples thr n s.
  Proof. intros (_ & _ & A & _ & B). unfold last_weights, low_ess, PfSpec.resamples. rewrite A, B. split; reflexivity. Qed.

  Lemma last_cons {A} (a b : A) l : last (a :: l) b = last l a.
  Proof. revert a b. induction l as [|c l IH]; intros a b; [reflexivity|]. change (last (a :: c :: l) b) with (last (c :: l) b). rewrite (IH c b), (IH c a). reflexivity. Qed.

  Lemma kept_shows w yts : forall ks j p s, length ks = length yts -> (j + length yts <= T)%nat ->
    shows dx j p s -> fine_m S' n s -> visited [dx] S' F' thr n y0 t0 yts0 yts s ->
    exists ps, kept dx (fun k => cat (w k)) (sf w) thr p (combine yts ks) = Some ps
      /\ (forall z, kept_evidence_from thr n z p ps = evidence_from thr n z s (scan' w s yts ks))
      /\ shows dx (j + length yts) (last ps p) (last (scan' w s yts ks) s).
  Proof.
    induction yts as [|[y t] yts IH]; intros [|k ks] j p s L Hj Sh Fi V; try discriminate.
    - exists []. split; [reflexivity|]. split; [reflexivity|]. cbn [length scan filter_scan last]. rewrite Nat.add_0_r. exact Sh.
    - cbn [length] in *. destruct (fine_props [dx] S' thr n s Fi) as (Lv & Ll & _).
      destruct (step_shows dx thr n T isamp psamp cat ilw plw w j p s y t k Sh Lv ltac:(lia) Ll (fun lw H => Hcat (w k) lw H)) as (p' & E & Sh').
      destruct (body_fine [dx] S' thr n w1' pin ppr cat pil ppl F' eq_refl Hw' Hn Hcat Hpin' y0 t0 yts0 w s y t k yts Fi V) as [Fi' V'].
      destruct (IH ks (S j) p' (body' w s y t k) ltac:(lia) ltac:(lia) Sh' Fi' V') as (ps & E1 & E2 & E3).
      exists (p' :: ps). cbn [combine kept]. rewrite E, E1. split; [reflexivity|].
      unfold scan. cbn [filter_scan]. fold (body' w s y t k). fold (scan' w (body' w s y t k) yts ks).
      cbn [kept_evidence_from evidence_from]. rewrite !last_cons. split.
      + intros z. destruct (shows_weights _ _ _ Sh) as [-> ->]. destruct (shows_weights _ _ _ Sh') as [-> _]. apply E2.
      + replace (j + S (length yts))%nat with (S j + length yts)%nat by lia. exact E3.
  Qed.

  Lemma shows_average j (p : particles X Tm) (s : marginal (list X) Tm) phi : shows dx j p s -> length (m_value s) = n ->
    path_average dx n phi p = average (fun pa => phi (rev pa)) s.
  Proof.
    intros Sh L. unfold path_average, average. destruct (shows_weights _ _ _ Sh) as [-> _]. f_equal.
    destruct Sh as (V & Le & _). transitivity (map (fun i => (fun pa => phi (rev pa)) (nth i (m_value s) [dx])) (seq 0 n)).
    - apply map_ext_in. intros i Hi. apply in_seq in Hi. f_equal. unfold path_of. rewrite V, map_map.
      rewrite Forall_forall in Le. specialize (Le (nth i (m_value s) [dx]) ltac:(apply nth_In; lia)).
      apply nth_ext with (d := dx) (d' := dx); [rewrite map_length, seq_length, rev_length; auto|].
      intros m Hm. rewrite map_length, seq_length in Hm.
      rewrite (nth_map_in _ _ _ 0%nat) by (rewrite seq_length; exact Hm). rewrite seq_nth by exact Hm. cbn [plus]. unfold row.
      rewrite (nth_map_in _ _ _ [dx]) by lia. reflexivity.
    - rewrite <- L. clear. generalize (m_value s). intros l. set (f := fun pa : list X => phi (rev pa)).
      apply nth_ext with (d := f [dx]) (d' := f [dx]); [rewrite !map_length, seq_length; reflexivity|].
      intros m Hm. rewrite map_length, seq_length in Hm.
      rewrite (nth_map_in _ _ _ 0%nat) by (rewrite seq_length; exact Hm). rewrite seq_nth by exact Hm. rewrite map_nth. reflexivity.
  Qed.

  (** ** The first particles *)
  Notation init w k := (initiate_particles (sf w) n k y0 t0).
  Lemma init_shows w k : exists s, last_marginal (initiate_particles (with_initial [dx] F' (draws0 n pin y0 t0 w k)) n k y0 t0) = Some s
    /\ shows dx 0 (init w k) s.
  Proof.
    rewrite <- (initiate_given [dx] S' n pin ppr pil ppl F' eq_refl Hiin' y0 t0 w k).
    unfold initiate_particles, last_marginal. cbn [value FilterModel.log_weight times observed ess at_last rev app].
    eexists. split; [reflexivity|]. unfold shows. cbn [value log_weight times ess m_value m_lw m_t m_ess at_last rev app seq map].
    cbn [stream_filter initial_sample initial_log_weight]. rewrite !map_map. unfold row. rewrite map_map.
    split; [|split; [|split; [|split]]].
    - cbn [pin pisamp rev app nth]. reflexivity.
    - apply Forall_forall. intros p Hp. apply in_map_iff in Hp. destruct Hp as (a & <- & _). reflexivity.
    - reflexivity.
    - reflexivity.
    - reflexivity.
  Qed.

  Variable phi : list X -> R.
  Variables (k0 : key) (ks : list key).
  Hypothesis Hk : length ks = length yts0.
  Hypothesis Hinc : ForallOrdPairs incomp (k0 :: ks).

  Let G (s : marginal (list X) Tm) (ms : list (marginal (list X) Tm)) : R :=
    evidence thr n s ms * average (fun pa => phi (rev pa)) (last ms s).

  Lemma kept_value w : forall s, last_marginal (initiate_particles (with_initial [dx] F' (draws0 n pin y0 t0 w k0)) n k0 y0 t0) = Some s ->
    of_kept dx thr n phi (init w k0) (kept dx (fun k => cat (w k)) (sf w) thr (init w k0) (combine yts0 ks)) = G s (scan' w s yts0 ks).
  Proof.
    intros s Es. destruct (init_shows w k0) as (s' & Es' & Sh). rewrite Es in Es'. injection Es' as <-.
    destruct (draws0_ok S' n pin Hiin' y0 t0 w k0) as [Lv Sv].
    destruct (initial_given [dx] S' F' n w0' Hw0' (draws0 n pin y0 t0 w k0) k0 y0 t0 Lv (fun x H => Sv x H)) as (s' & Es' & Fs & _).
    rewrite Es in Es'. injection Es' as <-.
    assert (V : visited [dx] S' F' thr n y0 t0 yts0 yts0 s) by (apply (visited_start [dx] S' F' thr n y0 t0 yts0 (draws0 n pin y0 t0 w k0) k0); assumption).
    destruct (kept_shows w yts0 ks 0 _ s Hk ltac:(unfold T; lia) Sh Fs V) as (ps & -> & E1 & E2).
    cbn [of_kept]. unfold G, kept_evidence, evidence. destruct (shows_weights _ _ _ Sh) as [-> _]. rewrite E1. f_equal.
    apply (shows_average _ _ _ _ E2).
    destruct (scan_fine [dx] S' thr n w1' pin ppr cat pil ppl F' eq_refl Hw' Hn Hcat Hpin' y0 t0 yts0 w yts0 ks s Hk Fs V) as [Fm _].
    assert (Fl : fine_m S' n (last (scan' w s yts0 ks) s)).
    { clear -Fs Fm. induction Fm as [|m ms F1 F2 IH]; [exact Fs|]. destruct ms; [exact F1|exact IH]. }
    apply Fl.
  Qed.

  Lemma kept_mean : has_mean P (fun w => of_kept dx thr n phi (init w k0) (kept dx (fun k => cat (w k)) (sf w) thr (init w k0) (combine yts0 ks)))
    (filter_mean [dx] S' mu' q' F' thr n y0 t0 yts0 k0 ks G).
  Proof.
    assert (I : List.Forall (incomp k0) ks /\ ForallOrdPairs incomp ks) by (inversion Hinc; split; assumption). destruct I as [I1 I2].
    set (GG := fun (vs : list (list X)) (w : key -> W) =>
      match last_marginal (initiate_particles (with_initial [dx] F' vs) n k0 y0 t0) with Some s => G s (scan' w s yts0 ks) | None => 0 end).
    set (NN := fun (vs : list (list X)) (f : R -> R) =>
      match last_marginal (initiate_particles (with_initial [dx] F' vs) n k0 y0 t0) with
      | Some s => filter_scan_mean [dx] S' q' F' thr n s yts0 ks (fun ms => f (G s ms)) | None => f 0 end).
    assert (D : drawn P (split_keys k0 n 0 n ++ scan_keys n ks)
      (fun w => of_kept dx thr n phi (init w k0) (kept dx (fun k => cat (w k)) (sf w) thr (init w k0) (combine yts0 ks)))
      (fun f => expect (repeat (init_law S' mu') n) (fun vs => NN vs f))).
    { apply (drawn_ext P _ (fun w => GG (draws0 n pin y0 t0 w k0) w)).
      { intros w. unfold GG. destruct (init_shows w k0) as (s & Es & _). rewrite Es. symmetry. apply kept_value, Es. }
      apply (drawn_bind P (split_keys k0 n 0 n) (scan_keys n ks) (fun w => draws0 n pin y0 t0 w k0) GG (expect (repeat (init_law S' mu') n)) NN).
      - apply (draws0_drawn S' P HP mu' n pin Hn y0 t0 Hil').
      - intros p H1 H2. apply in_map_iff in H1. destruct H1 as (i & <- & _). apply in_flat_map in H2. destruct H2 as (k' & Hk' & H2).
        apply bkeys_derived in H2. rewrite Forall_forall in I1. apply (I1 k' Hk' (KSplit k0 n i)); [repeat constructor|exact H2].
      - intros w. destruct (draws0_ok S' n pin Hiin' y0 t0 w k0) as [Lv Sv].
        destruct (initial_given [dx] S' F' n w0' Hw0' (draws0 n pin y0 t0 w k0) k0 y0 t0 Lv (fun x H => Sv x H)) as (s & Es & Fs & _).
        unfold GG, NN. rewrite Es. apply (drawn_map P _ (fun w' => scan' w' s yts0 ks) (fun ms => G s ms)).
        apply (scan_drawn [dx] S' P HP mu' q' thr n w1' pin ppr cat pil ppl F' eq_refl Hw' Hn Hcat Hpin' y0 t0 yts0 Hil' Hpl' Hmult' yts0 ks s Hk I2 Fs).
        apply (visited_start [dx] S' F' thr n y0 t0 yts0 (draws0 n pin y0 t0 w k0) k0); assumption. }
    destruct D as [_ D]. exists (split_keys k0 n 0 n ++ scan_keys n ks). exact (D (fun x => x)).
  Qed.

  (** ** Sums over paths *)
  Variable trans : X -> Tm -> X -> Tm -> R.
  Variable like : X -> obs -> Tm -> R.
  Hypothesis Hqw : forall x t y t' x', In x supp -> In x' supp -> q x t y t' x' * exp (w1 x t x' y t') = trans x t x' t' * like x' y t'.

  Lemma Qms_paths yts : forall pa t, incl pa supp -> (1 <= length pa)%nat -> (length pa + length yts = S T)%nat ->
    Qms S' q' w1' t yts (fun pa => phi (rev pa)) pa
    = Rsum (map (fun u => after trans like (now pa) t yts u * phi (rev pa ++ u)) (words supp (length yts))).
  Proof.
    induction yts as [|[y t'] yts IH]; intros pa t I L1 L2.
    - cbn. rewrite app_nil_r. lra.
    - cbn [Qms length words] in *. assert (Hp : In pa S') by (apply wsupp_in; split; [lia|exact I]).
      assert (Bp : base T pa = pa) by (unfold base; destruct (Nat.ltb_spec (length pa) (S T)); [reflexivity|lia]).
      unfold Qm, mean, prop_law. rewrite map_map. cbn [fst snd].
      rewrite (Rsum_ext _ (ext dec (base T pa) (fun x => q (now pa) t y t' x * (exp (w1 (now pa) t x y t') *
        Qms S' q' w1' t' yts (fun pa => phi (rev pa)) (x :: base T pa))))).
      2:{ intros p' _. exact (ext_scal dec (base T pa) (q (now pa) t y t')
            (fun p => exp (w1' pa t p y t') * Qms S' q' w1' t' yts (fun pa => phi (rev pa)) p) p'). }
      destruct (base_in pa Hp) as [Bl Bi]. rewrite (ext_sum dec supp Hs T _ _ Bl Bi), Bp, Rsum_flat.
      apply Rsum_ext. intros x Hx. rewrite map_map.
      rewrite IH.
      + rewrite <- Rmult_assoc, Hqw by (try assumption; apply now_in, Hp). rewrite <- Rsum_scal. apply Rsum_ext. intros u _.
        cbn [after hd rev]. rewrite <- app_assoc. cbn [app]. ring.
      + intros z [<-|Hz]; [exact Hx|apply I, Hz].
      + cbn; lia.
      + cbn [length]. lia.
  Qed.

  Hypothesis Hlw0 : forall x, In x supp -> exp (w0 x y0 t0) = like x y0 t0.

  Theorem paths_law :
    has_mean P (fun w => of_kept dx thr n phi (init w k0) (kept dx (fun k => cat (w k)) (sf w) thr (init w k0) (combine yts0 ks)))
      (Rsum (map (fun pa => joint_density trans like mu y0 t0 yts0 pa * phi pa) (words supp (S (length yts0))))).
  Proof.
    assert (E : filter_mean [dx] S' mu' q' F' thr n y0 t0 yts0 k0 ks G
      = Rsum (map (fun pa => joint_density trans like mu y0 t0 yts0 pa * phi pa) (words supp (S (length yts0))))).
    { rewrite (filter_mean_value [dx] S' mu' q' F' thr n w0' w1' Hw0' Hw' Hmu' Hq' Hn y0 t0 yts0 k0 ks (fun pa => phi (rev pa)) G Hk)
        by (intros; reflexivity).
      rewrite (Rsum_ext _ (ext dec [] (fun x => mu x * (exp (w0 x y0 t0) * Qms S' q' w1' t0 yts0 (fun pa => phi (rev pa)) [x])))).
      2:{ intros p' _. exact (ext_scal dec [] mu (fun p => exp (w0' p y0 t0) * Qms S' q' w1' t0 yts0 (fun pa => phi (rev pa)) p) p'). }
      rewrite (ext_sum dec supp Hs T) by (try (intros ? []); cbn; lia).
      cbn [words]. rewrite Rsum_flat. apply Rsum_ext. intros x Hx. rewrite map_map, Hlw0 by exact Hx.
      rewrite Qms_paths.
      - rewrite <- Rmult_assoc, <- Rsum_scal. apply Rsum_ext. intros u _. cbn [joint_density hd rev app]. ring.
      - intros z [<-|[]]. exact Hx.
      - cbn; lia.
      - cbn [length]. unfold T. lia. }
    rewrite <- E. apply kept_mean.
  Qed.
End C.
