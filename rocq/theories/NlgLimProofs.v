(** Lemmas on the ensemble Kalman filter with many particles. *)
From Coq Require Import Reals Lra.
From mathcomp Require Import ssreflect ssrfun ssrbool eqtype ssrnat seq choice fintype bigop ssralg perm matrix.
From Verif Require Import XR Keys RStruct BfgsModel BfgsSpec BfgsProofs LinAlg GaussModel GaussSpec GaussProofs
  KalmanSpec KalmanProofs TekiModel TekiSpec TekiProofs NlgModel NlgSpec NlgProofs LimitSpec.
Set Implicit Arguments.
Unset Strict Implicit.
Import GRing.Theory.
Local Open Scope ring_scope.

(** ** Limits of matrices *)
Lemma cv_const (a : R) : Un_cv (fun=> a) a.
Proof. by move=> eps He; exists 0%N => N _; rewrite R_dist_eq. Qed.
Lemma cv_ext (f g : nat -> R) a : (forall N, f N = g N) -> Un_cv f a -> Un_cv g a.
Proof. by move=> E H eps He; have [N0 HN] := H eps He; exists N0 => N Hl; rewrite -E; exact: HN. Qed.
Lemma cv_sum I (r : seq I) (F : nat -> I -> R) (a : I -> R) : (forall i, Un_cv (fun N => F N i) (a i)) ->
  Un_cv (fun N => \sum_(i <- r) F N i) (\sum_(i <- r) a i).
Proof.
move=> H; elim: r => [|i r IH].
  by rewrite big_nil; apply: cv_ext (cv_const _) => N; rewrite big_nil.
rewrite big_cons; apply: cv_ext (CV_plus _ _ _ _ (H i) IH) => N; by rewrite big_cons.
Qed.
Lemma cv_prod I (r : seq I) (F : nat -> I -> R) (a : I -> R) : (forall i, Un_cv (fun N => F N i) (a i)) ->
  Un_cv (fun N => \prod_(i <- r) F N i) (\prod_(i <- r) a i).
Proof.
move=> H; elim: r => [|i r IH].
  by rewrite big_nil; apply: cv_ext (cv_const _) => N; rewrite big_nil.
rewrite big_cons; apply: cv_ext (CV_mult _ _ _ _ (H i) IH) => N; by rewrite big_cons.
Qed.
Lemma cv_inv (f : nat -> R) a : a <> 0 -> Un_cv f a -> Un_cv (fun N => (f N)^-1) a^-1.
Proof.
move=> Ha H; apply: (continuity_seq Rinv f a) => //.
apply: (continuity_pt_inv id); last exact: Ha.
exact: derivable_continuous_pt (derivable_pt_id a).
Qed.

Lemma tends_ext p q (A B : nat -> 'M[R]_(p, q)) L : (forall N, A N = B N) -> tends A L -> tends B L.
Proof. by move=> E H i j; apply: cv_ext (H i j) => N; rewrite E. Qed.
Lemma tends_const p q (L : 'M[R]_(p, q)) : tends (fun=> L) L.
Proof. by move=> i j; exact: cv_const. Qed.
Lemma tendsD p q (A B : nat -> 'M[R]_(p, q)) L L' : tends A L -> tends B L' -> tends (fun N => A N + B N) (L + L').
Proof. by move=> HA HB i j; rewrite mxE; apply: cv_ext (CV_plus _ _ _ _ (HA i j) (HB i j)) => N; rewrite mxE. Qed.
Lemma tendsN p q (A : nat -> 'M[R]_(p, q)) L : tends A L -> tends (fun N => - A N) (- L).
Proof. by move=> HA i j; rewrite mxE; apply: cv_ext (CV_opp _ _ (HA i j)) => N; rewrite mxE. Qed.
Lemma tendsB p q (A B : nat -> 'M[R]_(p, q)) L L' : tends A L -> tends B L' -> tends (fun N => A N - B N) (L - L').
Proof. by move=> HA HB; apply: tendsD => //; exact: tendsN. Qed.
Lemma tendsT p q (A : nat -> 'M[R]_(p, q)) L : tends A L -> tends (fun N => (A N)^T) L^T.
Proof. by move=> HA i j; rewrite mxE; apply: cv_ext (HA j i) => N; rewrite mxE. Qed.
Lemma tendsM p q r (A : nat -> 'M[R]_(p, q)) (B : nat -> 'M[R]_(q, r)) L L' :
  tends A L -> tends B L' -> tends (fun N => A N *m B N) (L *m L').
Proof.
move=> HA HB i j; rewrite mxE; apply: (@cv_ext (fun N => \sum_k A N i k * B N k j)); first by move=> N; rewrite mxE.
by apply: cv_sum => k; exact: CV_mult.
Qed.
Lemma tends_det m (A : nat -> 'M[R]_m) L : tends A L -> Un_cv (fun N => \det (A N)) (\det L).
Proof.
move=> HA; rewrite /determinant; apply: cv_sum => s; apply: CV_mult; first exact: cv_const.
by apply: cv_prod => i; exact: HA.
Qed.
Lemma tends_adj m (A : nat -> 'M[R]_m) L : tends A L -> tends (fun N => \adj (A N)) (\adj L).
Proof.
move=> HA i j; rewrite mxE; apply: (@cv_ext (fun N => cofactor (A N) j i)); first by move=> N; rewrite mxE.
rewrite /cofactor; apply: CV_mult; first exact: cv_const.
apply: tends_det => a b; rewrite !mxE.
apply: (@cv_ext (fun N => A N (lift j a) (lift i b))); last exact: HA.
by move=> N; rewrite !mxE.
Qed.
Lemma tends_inv m (A : nat -> 'M[R]_m) L : (forall N, A N \in unitmx) -> L \in unitmx ->
  tends A L -> tends (fun N => invmx (A N)) (invmx L).
Proof.
move=> UA UL HA i j; rewrite /invmx UL mxE.
apply: (@cv_ext (fun N => (\det (A N))^-1 * (\adj (A N)) i j)); first by move=> N; rewrite UA [RHS]mxE.
apply: CV_mult; last exact: tends_adj.
apply: cv_inv; last exact: tends_det.
by move: UL; rewrite unitmxE unitfE => /eqP.
Qed.
Lemma tends0M p q r (A : nat -> 'M[R]_(p, q)) (B : nat -> 'M[R]_(q, r)) L : tends A L -> tends B 0 -> tends (fun N => A N *m B N) 0.
Proof. by move=> HA HB; rewrite -(mulmx0 _ L); exact: tendsM. Qed.
Lemma tendsM0 p q r (A : nat -> 'M[R]_(p, q)) (B : nat -> 'M[R]_(q, r)) L : tends A 0 -> tends B L -> tends (fun N => A N *m B N) 0.
Proof. by move=> HA HB; rewrite -(mul0mx _ L); exact: tendsM. Qed.

(** ** Sample covariances of combinations *)
Section Scov.
Variable n : nat.
Hypothesis Hn : (1 < n)%N.
Variables m p q r : nat.
Lemma scov_comb (A : 'M[R]_(n, p)) (F : 'M[R]_(p, m)) (B : 'M[R]_(n, q)) (G : 'M[R]_(q, m)) c (W : 'M[R]_(n, r)) :
  scov (each n c + A *m F + B *m G) W = F^T *m scov A W + G^T *m scov B W.
Proof. by rewrite /scov !sdevD sdev_each // add0r !sdevM trD !trmx_mul mulmxDl !mulmxA. Qed.
End Scov.
Lemma scov_combr n (Hn : (1 < n)%N) m p q r (A : 'M[R]_(n, p)) (F : 'M[R]_(p, m)) (B : 'M[R]_(n, q)) (G : 'M[R]_(q, m)) c (W : 'M[R]_(n, r)) :
  scov W (each n c + A *m F + B *m G) = scov W A *m F + scov W B *m G.
Proof. by rewrite -scov_sym scov_comb // trD; congr (_ + _); rewrite trmx_mul trmxK scov_sym. Qed.
Lemma mean_comb n (Hn : (1 < n)%N) m p q (A : 'M[R]_(n, p)) (F : 'M[R]_(p, m)) (B : 'M[R]_(n, q)) (G : 'M[R]_(q, m)) c :
  (sample_mean (each n c + A *m F + B *m G))^T = c^T + F^T *m (sample_mean A)^T + G^T *m (sample_mean B)^T.
Proof. by rewrite !sample_meanD sample_mean_each ?(ltnW Hn) // !sample_meanM !trD !trmx_mul. Qed.

(** ** Limits of combinations *)
Section Comb.
Variable n : nat -> nat.
Hypothesis Hn : forall N, (1 < n N)%N.
Variables m p q : nat.
Variables (A : forall N, 'M[R]_(n N, p)) (B : forall N, 'M[R]_(n N, q)).
Variables (F : nat -> 'M[R]_(p, m)) (G : nat -> 'M[R]_(q, m)) (c : nat -> 'rV[R]_m).
Variables (F' : 'M[R]_(p, m)) (G' : 'M[R]_(q, m)) (c' : 'rV[R]_m) (mA : 'cV[R]_p) (CA : 'M[R]_p) (CB : 'M[R]_q).
Hypothesis HF : tends F F'.
Hypothesis HG : tends G G'.
Hypothesis Hc : tends c c'.
Hypothesis HmA : tends (fun N => (sample_mean (A N))^T) mA.
Hypothesis HmB : tends (fun N => sample_mean (B N)) 0.
Hypothesis HA : tends (fun N => scov (A N) (A N)) CA.
Hypothesis HB : tends (fun N => scov (B N) (B N)) CB.
Hypothesis HAB : tends (fun N => scov (A N) (B N)) 0.
Variable X : forall N, 'M[R]_(n N, m).
Hypothesis HX : forall N, X N = each (n N) (c N) + A N *m F N + B N *m G N.

Lemma comb_mean : tends (fun N => (sample_mean (X N))^T) (c'^T + F'^T *m mA).
Proof.
apply: (@tends_ext _ _ (fun N => (c N)^T + (F N)^T *m (sample_mean (A N))^T + (G N)^T *m (sample_mean (B N))^T)).
  by move=> N; rewrite HX mean_comb.
rewrite -[X in tends _ X]addr0; apply: tendsD.
  by apply: tendsD; [exact: tendsT | apply: tendsM => //; exact: tendsT].
apply: (@tends0M _ _ _ _ _ G'^T); first exact: tendsT.
by rewrite -trmx0; exact: tendsT.
Qed.
Lemma comb_cov : tends (fun N => scov (X N) (X N)) (F'^T *m CA *m F' + G'^T *m CB *m G').
Proof.
have HBA : tends (fun N => scov (B N) (A N)) 0.
  by rewrite -trmx0; apply: tends_ext (tendsT HAB) => N; rewrite scov_sym.
apply: (@tends_ext _ _ (fun N => (F N)^T *m (scov (A N) (A N) *m F N + scov (A N) (B N) *m G N)
  + (G N)^T *m (scov (B N) (A N) *m F N + scov (B N) (B N) *m G N))).
  by move=> N; rewrite HX scov_comb // !scov_combr.
apply: tendsD.
  rewrite -mulmxA; apply: tendsM; first exact: tendsT.
  rewrite -[X in tends _ X]addr0; apply: tendsD; first exact: tendsM.
  exact: (tendsM0 HAB HG).
rewrite -[in X in tends _ X]mulmxA; apply: tendsM; first exact: tendsT.
rewrite -[X in tends _ X]add0r; apply: tendsD; first exact: (tendsM0 HBA HF).
exact: tendsM.
Qed.
Lemma comb_cross r (W : forall N, 'M[R]_(n N, r)) :
  tends (fun N => scov (A N) (W N)) 0 -> tends (fun N => scov (B N) (W N)) 0 -> tends (fun N => scov (X N) (W N)) 0.
Proof.
move=> HAW HBW.
apply: (@tends_ext _ _ (fun N => (F N)^T *m scov (A N) (W N) + (G N)^T *m scov (B N) (W N))).
  by move=> N; rewrite HX scov_comb.
rewrite -[X in tends _ X]addr0; apply: tendsD.
  by apply: (@tends0M _ _ _ _ _ F'^T) => //; exact: tendsT.
by apply: (@tends0M _ _ _ _ _ G'^T) => //; exact: tendsT.
Qed.
End Comb.

(** ** One step of the ensemble Kalman filter *)
Lemma each0 n m : each n (0 : 'rV[R]_m) = 0.
Proof. by rewrite /each mulmx0. Qed.
Lemma tr0E m p : (0 : 'M[R]_(m, p))^T = 0. Proof. exact: trmx0. Qed.
Lemma joseph d e (P : 'M[R]_d) (H : 'M[R]_(e, d)) (V : 'M[R]_e) (K : 'M[R]_(d, e)) :
  K *m (H *m P *m H^T + V) = P *m H^T ->
  (1%:M - K *m H) *m P *m (1%:M - K *m H)^T + K *m V *m K^T = P - K *m H *m P.
Proof.
move=> E; rewrite mulmxBl mul1mx trB trmx1 trmx_mul mulmxBr mulmx1 mulmxBl.
set A := P - K *m H *m P; rewrite -addrA; apply/eqP; rewrite -subr_eq0 addrAC subrr add0r.
have -> : P *m (H^T *m K^T) - K *m H *m P *m (H^T *m K^T) = K *m V *m K^T.
  by rewrite !mulmxA -E mulmxDr mulmxDl !mulmxA addrAC subrr add0r.
by rewrite addNr.
Qed.

Section Step.
Variables d e : nat.
Variable M : nlg d e.
Notation H := (likelihood_matrix M).
Notation V := (likelihood_covariance M).
Notation Q := (transition_covariance M).
Hypothesis HQ : posdef Q.
Hypothesis HV : posdef V.
Variable n : nat -> nat.
Hypothesis Hn : forall N, (1 < n N)%N.
Variables (nx : forall N, key -> 'M[R]_(n N, d)) (ny : forall N, key -> 'M[R]_(n N, e)).
Variables (kx ky : nat -> key).
Variables (X : forall N, 'M[R]_(n N, d)) (mu : 'cV[R]_d) (P : 'M[R]_d).
Hypothesis HP : posdef P.
Hypothesis Hmu : tends (fun N => (sample_mean (X N))^T) mu.
Hypothesis HC : tends (fun N => scov (X N) (X N)) P.
Notation Zx N := (nx N (kx N)).
Notation Zy N := (ny N (ky N)).
Hypothesis mx0 : tends (fun N => sample_mean (Zx N)) 0.
Hypothesis my0 : tends (fun N => sample_mean (Zy N)) 0.
Hypothesis vx1 : tends (fun N => scov (Zx N) (Zx N)) 1%:M.
Hypothesis vy1 : tends (fun N => scov (Zy N) (Zy N)) 1%:M.
Hypothesis Xx : tends (fun N => scov (X N) (Zx N)) 0.
Hypothesis Xy : tends (fun N => scov (X N) (Zy N)) 0.
Hypothesis xy : tends (fun N => scov (Zx N) (Zy N)) 0.
Variables (G : 'M[R]_d) (t0 t1 : R).
Hypothesis HG : forall x, transition_function M x t0 t1 = G *m x.
Variable y : 'cV[R]_e.

Let mx N := enkf_forecast M (nx N) (X N) t0 t1 (kx N).
Let X' N := enkf_analysis M (ny N) (mx N) y (ky N).
Let mu1 := G *m mu.
Let P1 := G *m P *m G^T + Q.
Let S1 := H *m P1 *m H^T + V.
Let K := P1 *m H^T *m invmx S1.

Lemma forecast_comb N : mx N = each (n N) 0 + X N *m G^T + Zx N *m (csqrt Q)^T.
Proof. by rewrite each0 add0r /mx /enkf_forecast (propagated_linear _ HG). Qed.
Lemma forecast_cov : tends (fun N => scov (mx N) (mx N)) P1.
Proof.
have := comb_cov Hn (tends_const G^T) (tends_const (csqrt Q)^T) HC vx1 Xx forecast_comb.
by rewrite !trmxK mulmx1 csqrt_gram.
Qed.
Lemma forecast_mean : tends (fun N => (sample_mean (mx N))^T) mu1.
Proof.
have := comb_mean Hn (tends_const G^T) (tends_const (csqrt Q)^T) (tends_const 0) Hmu mx0 forecast_comb.
by rewrite trmxK tr0E add0r.
Qed.
Lemma forecast_cross r (W : forall N, 'M[R]_(n N, r)) :
  tends (fun N => scov (X N) (W N)) 0 -> tends (fun N => scov (Zx N) (W N)) 0 -> tends (fun N => scov (mx N) (W N)) 0.
Proof. exact: (comb_cross Hn (tends_const G^T) (tends_const (csqrt Q)^T) forecast_comb). Qed.

Lemma P1_posdef : posdef P1. Proof. exact: cond_S. Qed.
Lemma S1_posdef : posdef S1. Proof. by apply: cond_S => //; exact: P1_posdef. Qed.
Lemma gain_tends : tends (fun N => enkf_gain M (mx N)) K.
Proof.
apply: (@tends_ext _ _ (fun N => scov (mx N) (mx N) *m H^T *m invmx (H *m scov (mx N) (mx N) *m H^T + V))).
  by move=> N; rewrite enkf_gainE.
apply: tendsM; first by apply: tendsM; [exact: forecast_cov | exact: tends_const].
apply: tends_inv.
- by move=> N; apply: posdef_unit; exact: enkf_S.
- by apply: posdef_unit; exact: S1_posdef.
apply: tendsD; last exact: tends_const.
by apply: tendsM; [apply: tendsM; [exact: tends_const | exact: forecast_cov] | exact: tends_const].
Qed.

Lemma analysis_comb N : X' N = each (n N) (y^T *m (enkf_gain M (mx N))^T) + mx N *m (1%:M - H^T *m (enkf_gain M (mx N))^T)
  + Zy N *m (- ((csqrt V)^T *m (enkf_gain M (mx N))^T)).
Proof.
rewrite /X' /enkf_analysis /each; move: (enkf_gain M (mx N)) (mx N) => K' A.
rewrite mulmxBr mulmx1 mulmxN mulmxBl mulmxDl opprD !mulmxA.
by rewrite [in RHS]addrA [in RHS](addrC (_ *m _) A) !addrA.
Qed.
Let F' := 1%:M - H^T *m K^T.
Let G' := - ((csqrt V)^T *m K^T).
Lemma tF : tends (fun N => 1%:M - H^T *m (enkf_gain M (mx N))^T) F'.
Proof. by apply: tendsB; [exact: tends_const | apply: tendsM; [exact: tends_const | apply: tendsT; exact: gain_tends]]. Qed.
Lemma tG : tends (fun N => - ((csqrt V)^T *m (enkf_gain M (mx N))^T)) G'.
Proof. by apply: tendsN; apply: tendsM; [exact: tends_const | apply: tendsT; exact: gain_tends]. Qed.
Lemma tc : tends (fun N => y^T *m (enkf_gain M (mx N))^T) (y^T *m K^T).
Proof. by apply: tendsM; [exact: tends_const | apply: tendsT; exact: gain_tends]. Qed.
Lemma mxy : tends (fun N => scov (mx N) (Zy N)) 0. Proof. exact: forecast_cross. Qed.

Lemma analysis_mean : tends (fun N => (sample_mean (X' N))^T) (mu1 + K *m (y - H *m mu1)).
Proof.
have := comb_mean Hn tF tG tc forecast_mean my0 analysis_comb.
suff -> : (y^T *m K^T)^T + F'^T *m mu1 = mu1 + K *m (y - H *m mu1) by [].
rewrite /F' trB trmx1 !trmx_mul !trmxK mulmxBl mul1mx mulmxBr -[K *m H *m _]mulmxA.
by rewrite addrCA.
Qed.
Lemma analysis_cov : tends (fun N => scov (X' N) (X' N)) (P1 - K *m H *m P1).
Proof.
have := comb_cov Hn tF tG forecast_cov vy1 mxy analysis_comb.
rewrite mulmx1; suff -> : F'^T *m P1 *m F' + G'^T *m G' = P1 - K *m H *m P1 by [].
have ES : K *m S1 = P1 *m H^T by rewrite /K mulmxKV //; apply: posdef_unit; exact: S1_posdef.
rewrite -(joseph ES) /F' /G'; move: K => K'; congr (_ + _).
  by rewrite !trB !trmx1 !trmx_mul !trmxK.
by rewrite [(- _)^T]linearN /= mulNmx mulmxN opprK trmx_mul !trmxK -!mulmxA [csqrt V *m (_ *m _)]mulmxA csqrt_gram.
Qed.
Lemma analysis_cross r (W : forall N, 'M[R]_(n N, r)) :
  tends (fun N => scov (X N) (W N)) 0 -> tends (fun N => scov (Zx N) (W N)) 0 -> tends (fun N => scov (Zy N) (W N)) 0 ->
  tends (fun N => scov (X' N) (W N)) 0.
Proof.
move=> H1 H2 H3; apply: (comb_cross Hn tF tG analysis_comb) => //.
exact: forecast_cross.
Qed.
End Step.
