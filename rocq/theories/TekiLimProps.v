(** C124: runs of ensemble Kalman inversion with many particles, for linear
    models. *)
From Coq Require Import Reals Lra.
From mathcomp Require Import ssreflect ssrfun ssrbool eqtype ssrnat seq choice fintype bigop ssralg matrix.
From Verif Require Import XR Keys RStruct BfgsSpec BfgsProofs LinAlg TekiModel TekiSpec TekiProofs TekiProps TekiRunProps
  LimitSpec NlgLimProofs TekiLimProofs NlgProps NlgLimProps.
Set Implicit Arguments.
Unset Strict Implicit.
Import GRing.Theory.
Local Open Scope ring_scope.

Lemma analysis_moved n d e (nu h : R) (data : 'rV[R]_e) (X X' : 'M[R]_(n, d)) (Y Z : 'M[R]_(n, e)) :
  (1 < n)%N -> is_analysis nu h data X X' Y Z -> X' = moved data nu (Rdiv 1 h) X Y Z.
Proof.
move=> Hn [L [HL]]; cbv zeta => HX.
have CC : cov_y_given_x nu X Y = conditional_cov nu X Y.
  by rewrite /cov_y_given_x /conditional_cov scov_sym !scovE.
have EL : y_given_x_chol nu X Y = L by rewrite /y_given_x_chol CC; exact: chol_unique HL.
apply/row_matrixP => i; rewrite HX /moved /teki_gain /cov_alph !scovE // CC; rewrite [RHS]linearD /= row_mul; congr (_ + _ *m _).
have -> : forall A B C : 'M[R]_(n, e), row i (A - B + C) = row i A - row i B + row i C.
  by move=> A B C; apply/rowP => q; rewrite !mxE.
congr (_ - _ + _).
  by apply/rowP => q; rewrite mxE eachE.
rewrite /perturbs EL; case: Rle_dec => H1.
  have -> : Rleb 1 (Rdiv 1 h) by apply/Rleb_true.
  by rewrite -scalemxAl linearZ /= row_mul.
have -> : Rleb 1 (Rdiv 1 h) = false by apply/Rleb_false; exact: Rnot_le_lt.
by rewrite linear0.
Qed.

(** what [run_at] says of the states [r] of a run *)
Definition run_facts (n : nat) (k : key) dx dy (lik : 'rV[R]_dx -> key -> 'rV[R]_dy) (normals : key -> 'M[R]_(n, dy)) data nu
    (next : tstate n dx dy -> nat -> 'M[R]_dy -> R) constrain term_std prior_std tmax mi (X : 'M[R]_(n, dx)) (s0 : tstate n dx dy)
    (r : seq (tstate n dx dy)) : Prop :=
  let s j := nth s0 r j in
  value (s 0%N) = X /\ temperature (s 0%N) = 0
  /\ (forall j (i : 'I_n), (j < size r)%N -> row i (simulated (s j)) = lik (row i (value (s j))) (skey n k j i))
  /\ (forall j, (j.+1 < size r)%N ->
       temperature (s j.+1) = next (s j) j.+1 (invmx (conditional_cov nu (value (s j)) (simulated (s j)) + nu%:M))
       /\ is_analysis nu (Rminus (temperature (s j.+1)) (temperature (s j))) data
            (value (s j)) (value (s j.+1)) (simulated (s j)) (normals (zkey n k j)))
  /\ (0 < size r)%N
  /\ let stop j := Rle tmax (temperature (s j)) \/ (mi <= j)%N
                   \/ collapsed constrain (fun c => Rmult term_std (prior_std c)) (value (s j)) in
     (forall j, (j.+1 < size r)%N -> ~ stop j) /\ stop (size r).-1.

(** The draws of a run of [m] updates: the noise of the simulated data of the
    particles ([(false, j)], one row for each particle) and the perturbations
    ([(true, j)]). *)
Definition eki_draws (e m n : nat) (xi : key -> 'rV[R]_e) (normals : key -> 'M[R]_(n, e)) (sk : nat -> nat -> key) (zk : nat -> key)
    (i : bool * 'I_m) : 'M[R]_(n, e) :=
  if i.1 then normals (zk i.2) else \matrix_(p, c) xi (sk i.2 p) ord0 c.

(** A linear model [H x + noise], noise covariance [B^T B], and a schedule of
    temperatures that starts at 0 and grows by at most 1 in each of [m] steps.
    For runs with [n N] particles and nuggets that tend to 0 there are different
    keys such that, when the sample moments of the initial ensemble tend to
    [m0] and [C0], those of the draws at these keys tend to those of independent
    standard normal draws, and the covariances between the two tend to 0, every
    run has [m] updates, and at each of them the sample mean and covariance of
    the ensemble tend to those of the Gaussian posterior at the temperature
    reached. *)
Theorem C124_limit d e (H : 'M[R]_(e, d)) (B : 'M[R]_e) (data : 'rV[R]_e) (T : nat -> R) (m mi : nat) (n : nat -> nat) (nu : nat -> R) k :
  (forall N, (1 < n N)%N) -> (forall N, Rlt 0 (nu N)) -> Un_cv nu 0 -> (0 < d)%N -> posdef (B^T *m B) ->
  T 0%N = 0 -> (forall j, (j < m)%N -> Rlt (T j) (T j.+1) /\ Rle (T j.+1) (Rplus (T j) 1)) -> (m <= mi)%N ->
  exists (sk : nat -> nat -> nat -> key) (zk : nat -> nat -> key),
  (forall N, (forall j i j' i', (i < n N)%N -> (i' < n N)%N -> sk N j i = sk N j' i' -> j = j' /\ i = i')
     /\ (forall j j', zk N j = zk N j' -> j = j') /\ (forall j i j', (i < n N)%N -> sk N j i <> zk N j'))
  /\ forall (xi : nat -> key -> 'rV[R]_e) (normals : forall N, key -> 'M[R]_(n N, e)) constrain prior_std
       (X0 : forall N, 'M[R]_(n N, d)) (m0 : 'rV[R]_d) (C0 : 'M[R]_d) (s0 : forall N, tstate (n N) d e),
  posdef C0 -> tends (fun N => sample_mean (X0 N)) m0 -> tends (fun N => sample_cov (X0 N) (X0 N)) C0 ->
  let draws N := @eki_draws e m (n N) (xi N) (normals N) (sk N) (zk N) in
  standard_limit draws -> (forall i, tends (fun N => sample_cov (X0 N) (draws N i)) 0) ->
  let lik N x q := x *m H^T + xi N q *m B in
  let r N := teki_run (lik N) (normals N) data (nu N) (fun _ it _ => T it) (constrain N) (IZR 0) (prior_std N) (T m) mi
               (startup (lik N) (X0 N) None k) in
  (forall N, size (r N) = m.+1)
  /\ forall j, (j <= m)%N -> (forall N, temperature (nth (s0 N) (r N) j) = T j)
     /\ exists mu C, is_tempered_posterior m0 C0 H (B^T *m B) data (T j) mu C
        /\ tends (fun N => sample_mean (value (nth (s0 N) (r N) j))) mu
        /\ tends (fun N => sample_cov (value (nth (s0 N) (r N) j)) (value (nth (s0 N) (r N) j))) C.
Proof.
move=> Hn nu0 nuT Hd HV T0 HT Hmi.
exists (fun N => skey (n N) k), (fun N => zkey (n N) k); split.
  move=> N; split; first by move=> j i j' i' _ _; exact: skey_inj.
  by split; [exact: zkey_inj | move=> j i j'; exact: skey_zkey].
move=> xi nor con ps X0 m0 C0 s0 HC0 Hm0 HX0 draws [M0 [V1 D0]] X0D lik r.
have RA N : run_facts k (lik N) (nor N) data (nu N) (fun _ it _ => T it) (con N) (IZR 0) (ps N) (T m) mi (X0 N) (s0 N) (r N)
  := @run_at (n N) k (Hn N) d e (lik N) (nor N) data (nu N) (fun _ it _ => T it) (con N) (IZR 0) (ps N) (T m) mi (X0 N) (s0 N) (nu0 N).
clearbody r.
have Tm i j : (i < j)%N -> (j <= m)%N -> Rlt (T i) (T j).
  elim: j => // j IH; rewrite ltnS leq_eqVlt => /orP [/eqP -> | Hi] Hj; first by have [] := HT j Hj.
  by apply: Rlt_trans (IH Hi (ltnW Hj)) _; have [] := HT j Hj.
have TE N j : (j < size (r N))%N -> temperature (nth (s0 N) (r N) j) = T j.
  have [_ [E0 [_ [St _]]]] := RA N; case: j => [|j] Hj; first by rewrite E0 T0.
  by have [] := St j Hj.
have NC N Y : ~ collapsed (con N) (fun c => Rmult (IZR 0) (ps N c)) Y.
  by move/(_ (Ordinal Hd)); rewrite Rmult_0_l => /Rlt_not_le; apply; exact: sqrt_pos.
have Sz N : size (r N) = m.+1.
  have [_ [_ [_ [_ [S0 [NS Last]]]]]] := RA N.
  have Lt : ((size (r N)).-1 < size (r N))%N by rewrite prednK.
  apply/eqP; rewrite eqn_leq; apply/andP; split; rewrite leqNgt; apply/negP => Hs.
    by apply: (NS m Hs); left; rewrite TE; [exact: Rle_refl | exact: ltnW].
  have Hl : ((size (r N)).-1 < m)%N by move: Hs; rewrite -(ltn_predK S0) ltnS.
  case: Last => [|[H'|/NC //]]; last by move: (leq_trans Hl Hmi); rewrite ltnNge H'.
  by rewrite TE // => /Rle_not_lt; apply; exact: Tm.
split=> // j Hj; split; first by move=> N; rewrite TE // Sz.
have V1' i : tends (fun N => scov (draws N i) (draws N i)) 1%:M by apply: tends_ext (V1 i) => N; rewrite scovE.
have D0' i i' : i <> i' -> tends (fun N => scov (draws N i) (draws N i')) 0.
  by move=> Hi; apply: tends_ext (D0 i i' Hi) => N; rewrite scovE.
suff main q : (q <= m)%N -> exists mu C, posdef C /\ is_tempered_posterior m0 C0 H (B^T *m B) data (T q) mu C
    /\ tends (fun N => (sample_mean (value (nth (s0 N) (r N) q)))^T) mu^T
    /\ tends (fun N => scov (value (nth (s0 N) (r N) q)) (value (nth (s0 N) (r N) q))) C
    /\ forall i : bool * 'I_m, (q <= i.2)%N -> tends (fun N => scov (value (nth (s0 N) (r N) q)) (draws N i)) 0.
  have [mu [C [_ [H1 [H2 [H3 _]]]]]] := main j Hj; exists mu, C; split=> //; split.
    by rewrite -[mu]trmxK; apply: tends_ext (tendsT H2) => N; rewrite trmxK.
  by apply: tends_ext H3 => N; rewrite scovE.
elim: q => [|q IH] Hq.
  exists m0, C0; split=> //; rewrite T0; split; first exact: tempered_zero.
  have E0 N : value (nth (s0 N) (r N) 0%N) = X0 N by have [] := RA N.
  split; first by apply: tends_ext (tendsT Hm0) => N; rewrite E0.
  split; first by apply: tends_ext HX0 => N; rewrite E0 scovE.
  by move=> i _; apply: tends_ext (X0D i) => N; rewrite E0 scovE.
have [mu [C [HC [HF [Hmu [Hcv HX]]]]]] := IH (ltnW Hq).
pose jq := Ordinal Hq; pose iu : bool * 'I_m := (false, jq); pose iz : bool * 'I_m := (true, jq).
pose X N := value (nth (s0 N) (r N) q).
pose E N := draws N iu *m B.
have [L1 L2] := HT q Hq.
pose a := Rdiv 1 (Rminus (T q.+1) (T q)).
have Ea : Rinv a = Rminus (T q.+1) (T q) by rewrite /a; field; lra.
have Ha : Rle 1 a.
  rewrite /a; apply: (Rmult_le_reg_r (T q.+1 - T q)); first by toR; lra.
  by rewrite /Rdiv Rmult_assoc Rinv_l; toR; lra.
have EY N : simulated (nth (s0 N) (r N) q) = X N *m H^T + E N.
  apply/row_matrixP => i; have [_ [_ [Hs _]]] := RA N; rewrite Hs ?Sz ?ltnS 1?ltnW // /lik linearD /= !row_mul.
  by congr (_ + _ *m _); apply/rowP => c; rewrite !mxE.
have EX N : value (nth (s0 N) (r N) q.+1) = moved data (nu N) a (X N) (X N *m H^T + E N) (draws N iz).
  have [_ [_ [_ [St _]]]] := RA N; have Hq' : (q.+1 < size (r N))%N by rewrite Sz.
  have [_ An] := St q Hq'.
  have Ev : value (nth (s0 N) (r N) q.+1)
      = moved data (nu N) (Rdiv 1 (Rminus (temperature (nth (s0 N) (r N) q.+1)) (temperature (nth (s0 N) (r N) q))))
          (X N) (simulated (nth (s0 N) (r N) q)) (nor N (zkey (n N) k q)) by exact: analysis_moved (Hn N) An.
  have Ez : draws N iz = nor N (zkey (n N) k q) by [].
  rewrite Ev Ez (TE N q.+1 Hq').
  rewrite (TE N q (ltnW Hq')).
  rewrite EY.
  exact: erefl.
have scE N p (U : 'M[R]_(n N, p)) : scov (E N) U = B^T *m scov (draws N iu) U.
  by rewrite /E /scov sdevM // trmx_mul mulmxA.
have XE p (U : forall N, 'M[R]_(n N, p)) : tends (fun N => scov (draws N iu) (U N)) 0 -> tends (fun N => scov (E N) (U N)) 0.
  move=> HU; apply: (@tends_ext _ _ (fun N => B^T *m scov (draws N iu) (U N))); first by move=> N; rewrite scE.
  by apply: (@tends0M _ _ _ _ _ B^T) => //; exact: tends_const.
have mE : tends (fun N => sample_mean (E N)) 0.
  apply: (@tends_ext _ _ (fun N => sample_mean (draws N iu) *m B)); first by move=> N; rewrite sample_meanM.
  by apply: (tendsM0 (M0 iu) (tends_const B)).
have EE : tends (fun N => scov (E N) (E N)) (B^T *m B).
  apply: (@tends_ext _ _ (fun N => B^T *m (scov (draws N iu) (draws N iu) *m B))).
    by move=> N; rewrite scE /E /scov sdevM // !mulmxA.
  apply: tendsM; first exact: tends_const.
  by rewrite -[X in tends _ X]mul1mx; apply: tendsM; [exact: V1' | exact: tends_const].
have Lu : (q <= iu.2)%N by [].
have Lz : (q <= iz.2)%N by [].
have XE' : tends (fun N => scov (X N) (E N)) 0.
  by apply: tends_sym => //; apply: XE; apply: tends_sym => //; exact: HX.
have EZ : tends (fun N => scov (E N) (draws N iz)) 0 by apply: XE; exact: D0'.
have [PD TP] := tempered_step mu H data HC HV Ha.
set K := C *m H^T *m _ in PD TP.
exists (mu^T + K *m (data^T - H *m mu^T))^T, (C - K *m H *m C); split=> //.
split.
  have -> : T q.+1 = Rplus (T q) (Rminus (T q.+1) (T q)) by ring.
  by rewrite -Ea; exact: tempered_comp HF TP.
split.
  rewrite trmxK.
  by apply: tends_ext (moved_mean H data HV Hn nu0 nuT HC Hmu Hcv mE (M0 iz) EE XE' Ha) => N; rewrite EX.
split.
  by apply: tends_ext (moved_cov H data HV Hn nu0 nuT HC Hcv EE (V1' iz) XE' (HX iz Lz) EZ Ha) => N; rewrite EX.
move=> i Hi.
have Nu : iu <> i by move=> Ei; move: Hi; rewrite -Ei /= ltnn.
have Nz : iz <> i by move=> Ei; move: Hi; rewrite -Ei /= ltnn.
apply: tends_ext (moved_cross H data HV Hn nu0 nuT HC Hcv EE XE' Ha (HX i (ltnW Hi)) (XE _ _ (D0' _ _ Nu)) (D0' _ _ Nz)) => N.
by rewrite EX.
Qed.
Print Assumptions C124_limit.

(** four particles and one update to temperature 1/2, nuggets [1/(N+1)], with
    draws whose standard deviations are [1 + 1/(N+1)] *)
Lemma nugget_cv : Un_cv (fun N => / INR N.+1)%R 0.
Proof. by apply: cv_ext RinvN_cv => N; rewrite S_INR. Qed.
Example C124_example (sk : nat -> nat -> nat -> key) (zk : nat -> nat -> key) :
  (forall N j i j' i', (i < 4)%N -> (i' < 4)%N -> sk N j i = sk N j' i' -> j = j' /\ i = i') ->
  let T j := Rdiv (INR j) 2 in
  (forall N : nat, Rlt 0 (/ INR N.+1)%R) /\ Un_cv (fun N => / INR N.+1)%R 0 /\ posdef ((1%:M : 'M[R]_1)^T *m 1%:M)
  /\ T 0%N = 0 /\ (forall j, (j < 1)%N -> Rlt (T j) (T j.+1) /\ Rle (T j.+1) (Rplus (T j) 1))
  /\ exists (xi : nat -> key -> 'rV[R]_1) (normals : nat -> key -> 'M[R]_(4, 1)) (X0 : nat -> 'M[R]_(4, 1)),
     let draws N := @eki_draws 1 1 4 (xi N) (normals N) (sk N) (zk N) in
     posdef (1%:M : 'M[R]_1) /\ tends (fun N => sample_mean (X0 N)) 0 /\ tends (fun N => sample_cov (X0 N) (X0 N)) 1%:M
     /\ standard_limit draws /\ (forall i, tends (fun N => sample_cov (X0 N) (draws N i)) 0).
Proof.
move=> Hsk T.
split; first by move=> N; apply: Rinv_0_lt_compat; apply: lt_0_INR; apply/ltP.
split; first exact: nugget_cv.
split; first by rewrite trmx1 mul1mx; apply: posdef_scalar; exact: Rlt_0_1.
split; first by rewrite /T /= /Rdiv Rmult_0_l.
split; first by case=> // _; rewrite /T /=; lra.
have [[M1 [M2 M3]] [[C12 [C13 C23]] [C11 [C22 C33]]]] := z_moments.
have sym (a b : 'M[R]_(4, 1)) : sample_cov a b = 0 -> sample_cov b a = 0.
  by move=> E; rewrite -scovE // -scov_sym scovE // E trmx0.
pose xi (N : nat) q : 'rV[R]_1 := \sum_(p < 4) (if key_eq_dec q (sk N 0%N p) then row p (z2 *m near1 N) else 0).
have Ex N j : (\matrix_(p < 4, c < 1) xi N (sk N (nat_of_ord (j : 'I_1)) p) ord0 c) = z2 *m near1 N.
  apply/matrixP => p c; rewrite [LHS]mxE (ord1 j) /xi (bigD1 p) //= big1 => [|p' Hp].
    by case: key_eq_dec => [E|[]] //=; rewrite addr0 mxE.
  case: key_eq_dec => [E0|] //=; have [_ E] := Hsk _ _ _ _ _ (ltn_ord p) (ltn_ord p') E0.
  by case/eqP: Hp; apply: val_inj; rewrite /= E.
exists xi, (fun N _ => z3 *m near1 N), (fun N => z1 *m near1 N); cbv zeta; split; first by apply: posdef_scalar; exact: Rlt_0_1.
split; first exact: near_mean M1.
split; first exact: near_cov C11.
rewrite /standard_limit /eki_draws; split; first split.
- by case=> [[] j] /=; [exact: near_mean M3 | apply: tends_ext (near_mean M2) => N; rewrite Ex].
- split.
    by case=> [[] j] /=; [exact: near_cov C33 | apply: tends_ext (near_cov C22) => N; rewrite Ex].
  case=> [[] j] [[] j'] //= H.
  + by case: H; rewrite (ord1 j) (ord1 j').
  + by apply: tends_ext (near_cov (sym _ _ C23)) => N; rewrite Ex.
  + by apply: tends_ext (near_cov C23) => N; rewrite Ex.
  + by case: H; rewrite (ord1 j) (ord1 j').
by case=> [[] j] /=; [exact: near_cov C13 | apply: tends_ext (near_cov C12) => N; rewrite Ex].
Qed.
