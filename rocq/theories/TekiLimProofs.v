(** Limits of the moments of ensemble Kalman inversion for linear models. *)
From Coq Require Import Reals Lra.
From mathcomp Require Import ssreflect ssrfun ssrbool eqtype ssrnat seq choice fintype bigop ssralg matrix.
From Verif Require Import XR Keys RStruct BfgsSpec BfgsProofs LinAlg KalmanProofs TekiModel TekiSpec TekiProofs LimitSpec NlgLimProofs.
Set Implicit Arguments.
Unset Strict Implicit.
Import GRing.Theory.
Local Open Scope ring_scope.

(** ** Bounded factors *)
Definition bounded p q (A : nat -> 'M[R]_(p, q)) := forall i j, exists c, forall N, Rle (Rabs (A N i j)) c.
Lemma cv_b0 (f g : nat -> R) c : (forall N, Rle (Rabs (f N)) c) -> Un_cv g 0 -> Un_cv (fun N => f N * g N) 0.
Proof.
move=> Hf Hg eps He.
have Hc : Rle 0 c by apply: Rle_trans (Hf 0%N); exact: Rabs_pos.
have He' : Rlt 0 (Rdiv eps (Rplus c 1)) by apply: Rdiv_lt_0_compat; lra.
have [N0 HN] := Hg _ He'; exists N0 => N Hl; have := HN N Hl; rewrite /R_dist !Rminus_0_r Rabs_mult => Hb.
apply: (@Rle_lt_trans _ (Rmult c (Rabs (g N)))).
  by apply: Rmult_le_compat_r; [exact: Rabs_pos | exact: Hf].
apply: (@Rle_lt_trans _ (Rmult (Rplus c 1) (Rabs (g N)))); first by have := Rabs_pos (g N); nra.
have -> : eps = Rmult (Rplus c 1) (Rdiv eps (Rplus c 1)) by field; lra.
by apply: Rmult_lt_compat_l; lra.
Qed.
Lemma cv_sum0 I (r : seq I) (F : nat -> I -> R) : (forall i, Un_cv (fun N => F N i) 0) -> Un_cv (fun N => \sum_(i <- r) F N i) 0.
Proof. by move=> H; have := cv_sum r H; rewrite big1. Qed.
Lemma tendsb0 p q r (A : nat -> 'M[R]_(p, q)) (B : nat -> 'M[R]_(q, r)) : bounded A -> tends B 0 -> tends (fun N => A N *m B N) 0.
Proof.
move=> HA HB i j; rewrite mxE; apply: (@cv_ext (fun N => \sum_k A N i k * B N k j)); first by move=> N; rewrite mxE.
apply: cv_sum0 => k; have [c Hc] := HA i k; apply: cv_b0 Hc _.
by have := HB k j; rewrite mxE.
Qed.
Lemma tends0b p q r (A : nat -> 'M[R]_(p, q)) (B : nat -> 'M[R]_(q, r)) : tends A 0 -> bounded B -> tends (fun N => A N *m B N) 0.
Proof.
move=> HA HB; rewrite -(@trmx0 _ r p).
apply: (@tends_ext _ _ (fun N => ((B N)^T *m (A N)^T)^T)); first by move=> N; rewrite trmx_mul !trmxK.
apply: tendsT; apply: tendsb0; last by rewrite -trmx0; exact: tendsT.
by move=> i j; have [c Hc] := HB j i; exists c => N; rewrite mxE.
Qed.
Lemma bounded_tr p q (A : nat -> 'M[R]_(p, q)) : bounded A -> bounded (fun N => (A N)^T).
Proof. by move=> H i j; have [c Hc] := H j i; exists c => N; rewrite mxE. Qed.
(** factors of converging matrices *)
Lemma bounded_gram p q (L : nat -> 'M[R]_(p, q)) V : tends (fun N => L N *m (L N)^T) V -> bounded L.
Proof.
move=> H i j.
have [c [Hc Hb]] := maj_by_pos _ (exist _ _ (H i i)).
exists (Rplus c 1) => N; have := Hb N; rewrite mxE => Hs.
have Hq : Rle (Rmult (L N i j) (L N i j)) c.
  apply: Rle_trans (Rle_trans _ _ _ (Rle_abs _) Hs).
  rewrite (bigD1 j) //= mxE.
  set r := \sum_(k < q | _) _.
  have : Rle 0 r.
    rewrite /r; elim/big_ind: _ => [|x y Hx Hy|k _]; first exact: Rle_refl.
      exact: Rplus_le_le_0_compat.
    by rewrite mxE; exact: Rle_0_sqr.
  by toR; lra.
by move: Hq; unfold Rabs; case: Rcase_abs => _; move: (L N i j) => x; nra.
Qed.

(** ** The exact step *)
Lemma tempered_step d e (m : 'rV[R]_d) (C : 'M[R]_d) (H : 'M[R]_(e, d)) (V : 'M[R]_e) (data : 'rV[R]_e) (a : R) :
  posdef C -> posdef V -> Rle 1 a ->
  let K := C *m H^T *m invmx (H *m C *m H^T + a *: V) in
  posdef (C - K *m H *m C)
  /\ is_tempered_posterior m C H V data (Rinv a) (m^T + K *m (data^T - H *m m^T))^T (C - K *m H *m C).
Proof.
move=> HX HV Ha K.
have HaV : posdef (a *: V) by exact: posdef_aV.
have PD := cond_posdef H HX HaV; have [I1 I2] := cond_info H HX HaV.
rewrite -/K in PD I1 I2.
have UV := posdef_unit HV.
have na : a <> 0 by move=> Z0; move: Ha; rewrite Z0 => /(Rlt_le_trans _ _ _ Rlt_0_1) /Rlt_irrefl.
have EI : H^T *m invmx (a *: V) *m H = Rinv a *: (H^T *m invmx V *m H).
  by rewrite inv_scale // -scalemxAr -scalemxAl.
split=> //; rewrite EI in I1; split=> //.
pose Lam : 'M[R]_d := invmx C + Rinv a *: (H^T *m invmx V *m H).
rewrite -/Lam; have J : Lam *m (C - K *m H *m C) = 1%:M by exact: mulmx1C I1.
have LK : Lam *m K = Rinv a *: (H^T *m invmx V).
  by rewrite -I2 mulmxA [Lam *m _]mulmxA J mul1mx inv_scale // -scalemxAr.
rewrite trmxK mulmxDr mulmxA LK mulmxBr {1}/Lam mulmxDl.
rewrite -!scalemxAl !mulmxA addrAC -!addrA; congr (_ + _).
by rewrite addNr addr0.
Qed.

(** ** One update *)
Section Step.
Variables d e : nat.
Variables (H : 'M[R]_(e, d)) (V : 'M[R]_e) (data : 'rV[R]_e).
Hypothesis HV : posdef V.
Variable n : nat -> nat.
Hypothesis Hn : forall N, (1 < n N)%N.
Variable nu : nat -> R.
Hypothesis nu0 : forall N, Rlt 0 (nu N).
Hypothesis nuT : Un_cv nu 0.
Variables (X : forall N, 'M[R]_(n N, d)) (E Z : forall N, 'M[R]_(n N, e)) (m : 'cV[R]_d) (P : 'M[R]_d).
Hypothesis HP : posdef P.
Hypothesis Hm : tends (fun N => (sample_mean (X N))^T) m.
Hypothesis HC : tends (fun N => scov (X N) (X N)) P.
Hypothesis mE : tends (fun N => sample_mean (E N)) 0.
Hypothesis mZ : tends (fun N => sample_mean (Z N)) 0.
Hypothesis EE : tends (fun N => scov (E N) (E N)) V.
Hypothesis ZZ : tends (fun N => scov (Z N) (Z N)) 1%:M.
Hypothesis XE : tends (fun N => scov (X N) (E N)) 0.
Hypothesis XZ : tends (fun N => scov (X N) (Z N)) 0.
Hypothesis EZ : tends (fun N => scov (E N) (Z N)) 0.
Variable a : R.
Hypothesis Ha : Rle 1 a.

Let Y N := X N *m H^T + E N.
Let cyx N := cov_y_given_x (nu N) (X N) (Y N).
Let L N := y_given_x_chol (nu N) (X N) (Y N).
Let K N := teki_gain (nu N) a (X N) (Y N).
Let X' N := moved data (nu N) a (X N) (Y N) (Z N).
Let S := H *m P *m H^T + a *: V.
Let K' := P *m H^T *m invmx S.

Lemma tends_nu k : tends (fun N => (nu N)%:M : 'M[R]_k) 0.
Proof.
move=> i j; rewrite mxE; apply: (@cv_ext (fun N => nu N * (i == j)%:R)); first by move=> N; rewrite mxE mulr_natr.
by have := CV_mult _ _ _ _ nuT (cv_const (i == j)%:R); rewrite Rmult_0_l.
Qed.
Lemma Y_comb N : Y N = each (n N) 0 + X N *m H^T + E N *m 1%:M.
Proof. by rewrite each0 add0r mulmx1. Qed.
Lemma YY_tends : tends (fun N => scov (Y N) (Y N)) (H *m P *m H^T + V).
Proof.
have := comb_cov Hn (tends_const H^T) (tends_const 1%:M) HC EE XE Y_comb.
by rewrite trmxK trmx1 mul1mx mulmx1.
Qed.
Lemma XY_tends : tends (fun N => scov (X N) (Y N)) (P *m H^T).
Proof.
apply: (@tends_ext _ _ (fun N => scov (X N) (X N) *m H^T + scov (X N) (E N) *m 1%:M)).
  by move=> N; rewrite Y_comb scov_combr.
rewrite -[X in tends _ X]addr0; apply: tendsD; first by apply: tendsM => //; exact: tends_const.
by apply: (tendsM0 XE (tends_const 1%:M)).
Qed.
Lemma YZ_tends : tends (fun N => scov (Y N) (Z N)) 0.
Proof. exact: (comb_cross Hn (tends_const H^T) (tends_const 1%:M) Y_comb). Qed.
Lemma cyx_tends : tends cyx V.
Proof.
have [SP _] := HP.
have -> : V = H *m P *m H^T + V - (P *m H^T)^T *m invmx (P + 0) *m (P *m H^T).
  rewrite addr0 trmx_mul trmxK SP -[H *m P *m invmx P]mulmxA mulmxV ?posdef_unit // mulmx1 mulmxA.
  by rewrite addrAC subrr add0r.
apply: tendsB; first exact: YY_tends.
apply: tendsM; last exact: XY_tends.
apply: tendsM; first by apply: tendsT; exact: XY_tends.
apply: tends_inv.
- by move=> N; apply: posdef_unit; exact: posdef_reg.
- by rewrite addr0; exact: posdef_unit.
by apply: tendsD => //; exact: tends_nu.
Qed.
Lemma LL_tends : tends (fun N => L N *m (L N)^T) V.
Proof.
apply: (@tends_ext _ _ (fun N => cyx N + (nu N)%:M)).
  by move=> N; have [_ [_ ->]] := chol_correct (cyx_posdef (nu0 N) (X N) (Y N)).
by rewrite -[X in tends _ X]addr0; apply: tendsD; [exact: cyx_tends | exact: tends_nu].
Qed.
Lemma L_bounded : bounded L. Proof. exact: bounded_gram LL_tends. Qed.
Lemma S_posdef : posdef S. Proof. by apply: cond_S => //; exact: posdef_aV. Qed.
Lemma tendsZ p q (c : R) (A : nat -> 'M[R]_(p, q)) A' : tends A A' -> tends (fun N => c *: A N) (c *: A').
Proof.
move=> HA i j; rewrite mxE; apply: (@cv_ext (fun N => c * A N i j)); first by move=> N; rewrite mxE.
by apply: CV_mult => //; exact: cv_const.
Qed.
Lemma K_tends : tends K K'.
Proof.
apply: tendsM; first exact: XY_tends.
apply: tends_inv.
- by move=> N; apply: posdef_unit; apply: cov_alph_posdef => //; apply: Rle_trans Ha; exact: Rle_0_1.
- by apply: posdef_unit; exact: S_posdef.
have -> : S = H *m P *m H^T + V + (a - 1) *: V + 0.
  by rewrite addr0 -addrA; congr (_ + _); rewrite scalerBl scale1r addrC subrK.
apply: tendsD; last exact: tends_nu.
by apply: tendsD; [exact: YY_tends | apply: tendsZ; exact: cyx_tends].
Qed.

(** the perturbations *)
Let W N := Z N *m (L N)^T.
Lemma mW : tends (fun N => sample_mean (W N)) 0.
Proof.
apply: (@tends_ext _ _ (fun N => sample_mean (Z N) *m (L N)^T)); first by move=> N; rewrite /W sample_meanM.
by apply: tends0b => //; apply: bounded_tr; exact: L_bounded.
Qed.
Lemma cross_W r (U : forall N, 'M[R]_(n N, r)) : tends (fun N => scov (Z N) (U N)) 0 -> tends (fun N => scov (W N) (U N)) 0.
Proof.
move=> HU; apply: (@tends_ext _ _ (fun N => L N *m scov (Z N) (U N))).
  by move=> N; rewrite /W /scov sdevM trmx_mul trmxK mulmxA.
by apply: tendsb0 => //; exact: L_bounded.
Qed.
Lemma tends_sym r q (U : forall N, 'M[R]_(n N, r)) (T : forall N, 'M[R]_(n N, q)) :
  tends (fun N => scov (U N) (T N)) 0 -> tends (fun N => scov (T N) (U N)) 0.
Proof. by move=> HU; rewrite -trmx0; apply: tends_ext (tendsT HU) => N; rewrite scov_sym. Qed.
Lemma WW : tends (fun N => scov (W N) (W N)) V.
Proof.
apply: (@tends_ext _ _ (fun N => L N *m ((scov (Z N) (Z N) - 1%:M) *m (L N)^T) + L N *m (L N)^T)).
  move=> N; rewrite /W {2}/scov !sdevM trmx_mul trmxK mulmxBl mul1mx mulmxBr subrK /scov.
  by rewrite !mulmxA.
rewrite -[X in tends _ X]add0r; apply: tendsD; last exact: LL_tends.
apply: tendsb0; first exact: L_bounded.
apply: tends0b; last by apply: bounded_tr; exact: L_bounded.
by rewrite -(subrr 1%:M); apply: tendsB => //; exact: tends_const.
Qed.
Let s := sqrt (a - 1).
Let B N := - E N + s *: W N.
Lemma B_comb N : B N = each (n N) 0 + E N *m (- 1%:M) + W N *m s%:M.
Proof. by rewrite each0 add0r mulmxN mulmx1 mul_mx_scalar. Qed.
Lemma EW : tends (fun N => scov (E N) (W N)) 0.
Proof. by apply: tends_sym; apply: cross_W; exact: tends_sym. Qed.
Lemma BB : tends (fun N => scov (B N) (B N)) (a *: V).
Proof.
have := comb_cov Hn (tends_const (- 1%:M)) (tends_const s%:M) EE WW EW B_comb.
suff -> : (- 1%:M)^T *m V *m - 1%:M + (s%:M)^T *m V *m s%:M = a *: V by [].
rewrite [(- 1%:M)^T]linearN /= trmx1 !mulNmx mulmxN opprK mul1mx mulmx1 tr_scalar_mx mul_mx_scalar mul_scalar_mx scalerA.
have -> : s * s = a - 1 by rewrite -RmultE sqrt_sqrt //; toR; lra.
by rewrite scalerBl scale1r addrC subrK.
Qed.
Lemma mB : tends (fun N => sample_mean (B N)) 0.
Proof.
rewrite -(oppr0 _) -[X in tends _ X]addr0.
apply: (@tends_ext _ _ (fun N => - sample_mean (E N) + s *: sample_mean (W N))).
  by move=> N; rewrite sample_meanD sample_meanN sample_meanZ.
by apply: tendsD; [exact: tendsN | rewrite -(scaler0 _ s); apply: tendsZ; exact: mW].
Qed.
Lemma cross_B r (U : forall N, 'M[R]_(n N, r)) :
  tends (fun N => scov (E N) (U N)) 0 -> tends (fun N => scov (Z N) (U N)) 0 -> tends (fun N => scov (B N) (U N)) 0.
Proof.
move=> H1 H2; apply: (comb_cross Hn (tends_const (- 1%:M)) (tends_const s%:M) B_comb) => //.
exact: cross_W.
Qed.
Lemma XB : tends (fun N => scov (X N) (B N)) 0.
Proof. by apply: tends_sym; apply: cross_B; apply: tends_sym. Qed.

Lemma moved_comb N : X' N = each (n N) (data *m (K N)^T) + X N *m (1%:M - H^T *m (K N)^T) + B N *m (K N)^T.
Proof.
rewrite /X' /moved -/(K N) /perturbs; have /Rleb_true -> := Ha.
rewrite -/s -/(L N) -scalemxAl -/(W N) /B /Y /each; move: (K N) (W N) => k w.
rewrite opprD mulmxBr mulmx1 !mulmxDl !mulNmx !mulmxA.
rewrite !addrA; congr (_ + _); congr (_ - _); congr (_ - _).
by rewrite addrC.
Qed.
Let F' := 1%:M - H^T *m K'^T.
Lemma tF : tends (fun N => 1%:M - H^T *m (K N)^T) F'.
Proof. by apply: tendsB; [exact: tends_const | apply: tendsM; [exact: tends_const | apply: tendsT; exact: K_tends]]. Qed.
Lemma tK : tends (fun N => (K N)^T) K'^T. Proof. by apply: tendsT; exact: K_tends. Qed.
Lemma tc : tends (fun N => data *m (K N)^T) (data *m K'^T).
Proof. by apply: tendsM; [exact: tends_const | exact: tK]. Qed.
Lemma moved_mean : tends (fun N => (sample_mean (X' N))^T) (m + K' *m (data^T - H *m m)).
Proof.
have := comb_mean Hn tF tK tc Hm mB moved_comb.
suff -> : (data *m K'^T)^T + F'^T *m m = m + K' *m (data^T - H *m m) by [].
rewrite /F' trB trmx1 !trmx_mul !trmxK mulmxBl mul1mx mulmxBr -[K' *m H *m _]mulmxA.
by rewrite addrCA.
Qed.
Lemma moved_cov : tends (fun N => scov (X' N) (X' N)) (P - K' *m H *m P).
Proof.
have := comb_cov Hn tF tK HC BB XB moved_comb.
suff -> : F'^T *m P *m F' + K'^T^T *m (a *: V) *m K'^T = P - K' *m H *m P by [].
have ES : K' *m S = P *m H^T by rewrite /K' mulmxKV //; apply: posdef_unit; exact: S_posdef.
rewrite -(joseph ES) /F'; move: K' => k; congr (_ + _).
  by rewrite !trB !trmx1 !trmx_mul !trmxK.
by rewrite trmxK.
Qed.
Lemma moved_cross r (U : forall N, 'M[R]_(n N, r)) :
  tends (fun N => scov (X N) (U N)) 0 -> tends (fun N => scov (E N) (U N)) 0 -> tends (fun N => scov (Z N) (U N)) 0 ->
  tends (fun N => scov (X' N) (U N)) 0.
Proof.
move=> H1 H2 H3; apply: (comb_cross Hn tF tK moved_comb) => //.
exact: cross_B.
Qed.
End Step.
