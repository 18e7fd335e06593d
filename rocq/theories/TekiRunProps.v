(** Theorem on whole runs of ensemble Kalman inversion: C95. *)
From Coq Require Import Reals Lra Lia.
From mathcomp Require Import ssreflect ssrfun ssrbool eqtype ssrnat seq choice fintype bigop ssralg matrix.
From Verif Require Import XR Keys RStruct BfgsSpec BfgsProofs LinAlg LoopModel LoopSpec LoopProps TekiModel TekiSpec TekiProofs.
Set Implicit Arguments.
Unset Strict Implicit.
Import GRing.Theory.
Local Open Scope ring_scope.

(** ** Specification, by sample moments *)
Section Spec.
Variables n dx dy : nat.
(** covariance of the data given the particles *)
Definition conditional_cov (nu : R) (X : 'M[R]_(n, dx)) (Y : 'M[R]_(n, dy)) : 'M[R]_dy :=
  sample_cov Y Y - sample_cov Y X *m invmx (sample_cov X X + nu%:M) *m sample_cov X Y.
(** [X'] is the analysis of [X] with step [h] of the temperature: inflation
    [1/h], gain of the inflated covariance, perturbed innovations *)
Definition is_analysis (nu h : R) (data : 'rV[R]_dy) (X X' : 'M[R]_(n, dx)) (Y Z : 'M[R]_(n, dy)) : Prop :=
  exists L, is_cholesky L (conditional_cov nu X Y + nu%:M)
  /\ let a := Rdiv 1 h in
     let K := sample_cov X Y *m invmx (sample_cov Y Y + Rminus a 1 *: conditional_cov nu X Y + nu%:M) in
     let noise i := if Rle_dec 1 a then sqrt (Rminus a 1) *: (row i Z *m L^T) else 0 in
     forall i, row i X' = row i X + (data - row i Y + noise i) *m K^T.
(** the spread of every coordinate is below its threshold *)
Definition collapsed (f : 'M[R]_(n, dx) -> 'M[R]_(n, dx)) (tau : 'I_dx -> R) (X : 'M[R]_(n, dx)) : Prop :=
  forall j, Rlt (sqrt (sample_cov (f X) (f X) j j)) (tau j).
End Spec.

Fixpoint kdepth (k : key) : nat := match k with KRoot _ => 0%N | KSplit k' _ _ => (kdepth k').+1 end.
Section Keys.
Variables (n : nat) (k : key).
Fixpoint tchain (j : nat) : key := match j with 0 => KSplit k (2 * n) (2 * n).-1 | j'.+1 => KSplit (tchain j') (n + 2) n.+1 end.
Definition skey (j i : nat) : key := match j with 0 => KSplit k (2 * n) i | j'.+1 => KSplit (tchain j') (n + 2) i end.
Definition zkey (j : nat) : key := KSplit (tchain j) (n + 2) n.
Lemma kdepth_chain j : kdepth (tchain j) = ((kdepth k).+1 + j)%N.
Proof. by elim: j => [|j /= ->]; rewrite ?addn0 //= addnS. Qed.
Lemma kdepth_skey j i : kdepth (skey j i) = ((kdepth k).+1 + j)%N.
Proof. by case: j => [|j] /=; rewrite ?addn0 // kdepth_chain addnS. Qed.
Lemma kdepth_zkey j : kdepth (zkey j) = ((kdepth k).+2 + j)%N.
Proof. by rewrite /= kdepth_chain. Qed.
Lemma skey_inj j i j' i' : skey j i = skey j' i' -> j = j' /\ i = i'.
Proof.
move=> E; have D : j = j' by move: (congr1 kdepth E); rewrite !kdepth_skey => /eqP; rewrite eqn_add2l => /eqP.
by subst j'; split=> //; case: j E => [|j] [].
Qed.
Lemma zkey_inj j j' : zkey j = zkey j' -> j = j'.
Proof. by move/(congr1 kdepth); rewrite !kdepth_zkey => /eqP; rewrite eqn_add2l => /eqP. Qed.
Lemma skey_zkey j i j' : (i < n)%N -> skey j i <> zkey j'.
Proof.
move=> Hi E; have D : j = j'.+1.
  by move: (congr1 kdepth E); rewrite kdepth_skey kdepth_zkey !addSn => [[]] /eqP; rewrite -addnS eqn_add2l => /eqP.
by subst j; case: E => E; move: Hi; rewrite E ltnn.
Qed.
End Keys.

(** the same with the keys of the program *)
Lemma run_at (n : nat) (k : key) : (1 < n)%N ->
  forall dx dy lik normals data nu next constrain term_std prior_std tmax mi (X : 'M[R]_(n, dx)) (s0 : tstate n dx dy),
  Rlt 0 nu ->
  let r := teki_run lik normals data nu next constrain term_std prior_std tmax mi (startup lik X None k) in
  let s j := nth s0 r j in
  value (s 0%N) = X /\ temperature (s 0%N) = 0
  /\ (forall j (i : 'I_n), (j < size r)%N -> row i (simulated (s j)) = lik (row i (value (s j))) (skey n k j i))
  /\ (forall j, (j.+1 < size r)%N ->
       temperature (s j.+1) = next (s j) j.+1 (invmx (conditional_cov nu (value (s j)) (simulated (s j)) + nu%:M))
       /\ is_analysis nu (Rminus (temperature (s j.+1)) (temperature (s j))) data
            (value (s j)) (value (s j.+1)) (simulated (s j)) (normals (zkey n k j)))
  /\ (0 < size r)%N
  /\ let stop j := Rle tmax (temperature (s j)) \/ (mi <= j)%N
                   \/ collapsed constrain (fun c => Rmult term_std (prior_std c)) (value (s j)) in
     (forall j, (j.+1 < size r)%N -> ~ stop j) /\ stop (size r).-1.
Proof.
move=> Hn.
move=> dx dy lik nor data nu next con ts ps tmax mi X s0 Hnu r s.
pose upd := update lik nor data nu next; pose ini := startup lik X None k; pose term := terminate (dy := dy) con ts ps tmax mi.
have [m [[[Hm [Hc Hs]] Hr] _]] := C01_run_is_while_loop _ _ term upd ini mi.
have Sz : size r = m.+1.
  by rewrite /r /teki_run -/upd -/ini -/term Hr; elim: (m.+1) (0%N) => [|q IH] p //=; rewrite IH.
have N j : (j <= m)%N -> s j = fst (iterate upd j ini).
  move=> Hj; rewrite /s /r /teki_run -/upd -/ini -/term Hr.
  have : forall q p j, (j < q)%N -> nth s0 (List.map (fun i => fst (iterate upd i ini)) (List.seq p q)) j = fst (iterate upd (p + j)%N ini).
    by elim=> [|q IH] p [|j'] //= Hj'; rewrite ?addn0 // IH // addSnnS.
  by move/(_ m.+1 0%N j); apply.
have It j : t_iter (snd (iterate upd j ini)) = j by elim: j => [|j /= ->].
have Kt j : t_key (snd (iterate upd j ini)) = tchain n k j by elim: j => [|j /= ->].
have SC p q (A : 'M[R]_(n, p)) (B : 'M[R]_(n, q)) : scov A B = sample_cov A B by exact: scovE.
have CC (A : 'M[R]_(n, dx)) (B : 'M[R]_(n, dy)) : cov_y_given_x nu A B = conditional_cov nu A B.
  by rewrite /cov_y_given_x /conditional_cov scov_sym !SC.
split; first by rewrite N.
split; first by rewrite N.
split.
  move=> j i; rewrite Sz => Hj; rewrite N //; case: j Hj => [|j] Hj.
    by apply/rowP => c; rewrite !mxE.
  by rewrite /=; apply/rowP => c; rewrite !mxE Kt.
split.
  move=> j; rewrite Sz => Hj; rewrite !N //; last exact: ltnW.
  rewrite -CC -/(prec_y_given_x nu _ _); split; first by rewrite /= It.
  set c := iterate upd j ini.
  exists (y_given_x_chol nu (value c.1) (simulated c.1)); split; first by rewrite -CC; exact: chol_correct (cyx_posdef Hnu _ _).
  move=> a K noise i; rewrite /= -/c It /moved.
  have -> : t_key c.2 = tchain n k j by exact: Kt.
  set h := next _ _ _.
  have Ea : alph_of (temperature c.1) h = a by rewrite /alph_of /a /= -/c It.
  rewrite Ea.
  have EK : teki_gain nu a (value c.1) (simulated c.1) = K by rewrite /teki_gain /cov_alph /K !SC CC.
  rewrite EK linearD /= row_mul; congr (_ + _ *m _).
  have -> : forall A B C : 'M[R]_(n, dy), row i (A - B + C) = row i A - row i B + row i C.
    by move=> A B C; apply/rowP => q; rewrite !mxE.
  congr (_ - _ + _).
    by apply/rowP => q; rewrite !mxE (bigD1 ord0) //= big1 => [|u]; rewrite ?mxE ?mul1r ?addr0 //; case: u => [[]].
  rewrite /perturbs /noise; case: Rle_dec => H1.
    have -> : Rleb 1 a by apply/Rleb_true.
    by rewrite -scalemxAl linearZ /= row_mul.
  have -> : Rleb 1 a = false by apply/Rleb_false; exact: Rnot_le_lt.
  by rewrite linear0.
split; first by rewrite Sz.
move=> stop.
have T j : (j <= m)%N -> term (iterate upd j ini).1 (iterate upd j ini).2 <-> stop j.
  move=> Hj; rewrite /term /terminate /stop N // It; split.
    case/orP => [/orP [/Rleb_true H|H]|/forallP H]; [by left|by right; left|right; right].
    by move=> c; apply/Rltb_true; move: (H c); rewrite /column_std SC.
  case=> [H|[H|H]]; [by apply/orP; left; apply/orP; left; apply/Rleb_true|by apply/orP; left; apply/orP; right|].
  by apply/orP; right; apply/forallP => c; apply/Rltb_true; rewrite /column_std SC.
split.
  move=> j; rewrite Sz ltnS => Hj /(T j (ltnW Hj)) E.
  by move: (Hc j (elimT ltP Hj)); rewrite E.
rewrite Sz /=; case: Hs => [->|/negbFE E]; last by apply/T.
by right; left.
Qed.

(** C95: a run starts at the given particles and temperature zero; the
    simulated data of every state are drawn from its own particles, with keys
    used once; every next ensemble is the perturbed-observation analysis of the
    previous one over the change of temperature; and the run stops at the first
    state that has reached the maximal temperature, the maximal number of
    iterations, or has collapsed in every coordinate. *)
Theorem C95_run : forall (n : nat) (k : key), (1 < n)%N ->
  exists (sk : nat -> nat -> key) (zk : nat -> key),
  (forall j i j' i', (i < n)%N -> (i' < n)%N -> sk j i = sk j' i' -> j = j' /\ i = i')
  /\ (forall j j', zk j = zk j' -> j = j')
  /\ (forall j i j', (i < n)%N -> sk j i <> zk j')
  /\ forall dx dy lik normals data nu next constrain term_std prior_std tmax mi (X : 'M[R]_(n, dx)) (s0 : tstate n dx dy),
  Rlt 0 nu ->
  let r := teki_run lik normals data nu next constrain term_std prior_std tmax mi (startup lik X None k) in
  let s j := nth s0 r j in
  value (s 0%N) = X /\ temperature (s 0%N) = 0
  /\ (forall j (i : 'I_n), (j < size r)%N -> row i (simulated (s j)) = lik (row i (value (s j))) (sk j i))
  /\ (forall j, (j.+1 < size r)%N ->
       temperature (s j.+1) = next (s j) j.+1 (invmx (conditional_cov nu (value (s j)) (simulated (s j)) + nu%:M))
       /\ is_analysis nu (Rminus (temperature (s j.+1)) (temperature (s j))) data
            (value (s j)) (value (s j.+1)) (simulated (s j)) (normals (zk j)))
  /\ (0 < size r)%N
  /\ let stop j := Rle tmax (temperature (s j)) \/ (mi <= j)%N
                   \/ collapsed constrain (fun c => Rmult term_std (prior_std c)) (value (s j)) in
     (forall j, (j.+1 < size r)%N -> ~ stop j) /\ stop (size r).-1.
Proof.
move=> n k Hn; exists (skey n k), (zkey n k).
split; first by move=> j i j' i' _ _; exact: skey_inj.
split; first exact: zkey_inj.
split; first by move=> j i j'; exact: skey_zkey.
exact: (run_at k Hn).
Qed.
Print Assumptions C95_run.

(** Temperatures 1/2 and 1 for any number of particles: two updates. *)
Example C95_example : forall (n dx dy : nat) lik normals data con prior_std (X : 'M[R]_(n, dx.+1)) k (s0 : tstate n dx.+1 dy), (1 < n)%N ->
  let r := teki_run lik normals data 1 (fun _ it _ => Rdiv (INR it) 2) con (IZR 0) prior_std (IZR 1) 10%N (startup lik X None k) in
  size r = 3%N /\ temperature (nth s0 r 2%N) = IZR 1.
Proof.
move=> n dx dy lik nor data con ps X k s0 Hn r.
have [sk [zk [_ [_ [_ /(_ dx.+1 dy lik nor data 1 (fun _ it _ => Rdiv (INR it) 2) con (IZR 0) ps (IZR 1) 10%N X s0 Rlt_0_1)]]]]] := C95_run k Hn.
cbv zeta; rewrite -/r; clearbody r; move=> [_ [T0 [_ [St [S0 [NS Last]]]]]].
have T j : (j < size r)%N -> temperature (nth s0 r j) = Rdiv (INR j) 2.
  case: j => [|j] H; first by rewrite T0; rewrite /Rdiv Rmult_0_l.
  by case: (St j H).
have NC Y : ~ collapsed con (fun c => Rmult (IZR 0) (ps c)) Y.
  by move/(_ ord0); rewrite Rmult_0_l => /Rlt_not_le; apply; exact: sqrt_pos.
have L2 : (2 < size r)%N.
  case: Last => [|[|/NC //]]; last by case: (size r) => [|[|[|q]]].
  have Lt : ((size r).-1 < size r)%N by rewrite prednK.
  rewrite (T _ Lt) => H; rewrite ltnNge; apply/negP => H2.
  have : Rle (INR (size r).-1) (INR 1) by apply: le_INR; apply/leP; rewrite -ltnS prednK.
  by move: H; rewrite /Rdiv; set x := INR _; change (INR 1) with (IZR 1); lra.
have S3 : size r = 3%N.
  apply/eqP; rewrite eqn_leq L2 andbT leqNgt; apply/negP => H.
  by apply: (NS 2%N H); left; rewrite T //=; lra.
by split=> //; rewrite T // /=; lra.
Qed.
