(** Lemmas for tempered ensemble Kalman inversion. *)
From Coq Require Import Reals Lra ZArith.
From mathcomp Require Import ssreflect ssrfun ssrbool eqtype ssrnat seq choice fintype bigop ssralg matrix.
From Verif Require Import XR Keys RStruct BfgsModel BfgsSpec BfgsProofs LinAlg GaussSpec KalmanProofs TekiModel TekiSpec.
Set Implicit Arguments.
Unset Strict Implicit.
Import GRing.Theory.
Local Open Scope ring_scope.

Section Moments.
Variable n : nat.
Hypothesis Hn : (1 < n)%N.

Lemma INRn : Rlt 1 (INR n).
Proof. by apply: lt_1_INR; apply/ltP. Qed.

Lemma colmeanE m (A : 'M[R]_(n, m)) : colmean A = sample_mean A.
Proof.
apply/rowP=> j; rewrite !mxE /Rdiv Rmult_comm; congr (Rmult _ _).
by apply: eq_bigr => i _; rewrite mxE mul1r.
Qed.

Lemma eachE m (v : 'rV[R]_m) i j : each n v i j = v ord0 j.
Proof. by rewrite /each !mxE big_ord_recl big_ord0 addr0 mxE mul1r. Qed.

Lemma sdevE m (A : 'M[R]_(n, m)) i j : sdev A i j = (sqrt (INR n - 1))^-1 * deviation A i j.
Proof. by rewrite /sdev [LHS]mxE [fun_of_matrix (_ + _) i j]mxE [fun_of_matrix (- _) i j]mxE eachE colmeanE. Qed.

Lemma sqrt_n1 : (sqrt (INR n - 1))^-1 * (sqrt (INR n - 1))^-1 = Rinv (INR n - 1).
Proof.
have H := INRn; toR; rewrite -Rinv_mult sqrt_sqrt //; lra.
Qed.

Lemma scovE m p (A : 'M[R]_(n, m)) (B : 'M[R]_(n, p)) : scov A B = sample_cov A B.
Proof.
apply/matrixP=> j k; rewrite /scov !mxE /Rdiv Rmult_comm RmultE.
rewrite big_distrr /=; apply: eq_bigr => i _; rewrite mxE !sdevE.
by rewrite mulrACA sqrt_n1.
Qed.

Lemma sample_meanM m p (A : 'M[R]_(n, m)) (M : 'M[R]_(m, p)) : sample_mean (A *m M) = sample_mean A *m M.
Proof. by rewrite -!colmeanE /colmean -scalemxAl mulmxA. Qed.
Lemma sample_meanD m (A B : 'M[R]_(n, m)) : sample_mean (A + B) = sample_mean A + sample_mean B.
Proof. by rewrite -!colmeanE /colmean mulmxDr scalerDr. Qed.
Lemma sample_meanN m (A : 'M[R]_(n, m)) : sample_mean (- A) = - sample_mean A.
Proof. by rewrite -!colmeanE /colmean mulmxN scalerN. Qed.
Lemma sample_mean_each m (v : 'rV[R]_m) : sample_mean (each n v) = v.
Proof.
apply/rowP=> j; rewrite mxE.
have -> : \sum_(i < n) each n v i j = INR n * v ord0 j.
  rewrite (eq_bigr (fun _ => v ord0 j)) => [|i _]; last by rewrite eachE.
  rewrite big_const card_ord; elim: (n) => [|k IH]; first by rewrite /= mul0r.
  rewrite iterS IH S_INR; toR; ring.
have H := INRn; move: (v ord0 j) => c; toR; field; lra.
Qed.
Lemma sdevD m (A B : 'M[R]_(n, m)) : sdev (A + B) = sdev A + sdev B.
Proof. by rewrite /sdev !colmeanE sample_meanD /each mulmxDr opprD addrACA scalerDr. Qed.
Lemma sdevM m p (A : 'M[R]_(n, m)) (M : 'M[R]_(m, p)) : sdev (A *m M) = sdev A *m M.
Proof. by rewrite /sdev !colmeanE sample_meanM /each mulmxA -scalemxAl mulmxBl. Qed.
Lemma sdevN m (A : 'M[R]_(n, m)) : sdev (- A) = - sdev A.
Proof. by rewrite /sdev !colmeanE sample_meanN /each mulmxN -opprD scalerN. Qed.
Lemma sdev_each m (v : 'rV[R]_m) : sdev (each n v) = 0.
Proof. by rewrite /sdev colmeanE sample_mean_each subrr scaler0. Qed.

Lemma scov_sym m (A : 'M[R]_(n, m)) p (B : 'M[R]_(n, p)) : (scov A B)^T = scov B A.
Proof. by rewrite /scov trmx_mul trmxK. Qed.

(** ** Conditional covariance *)
Section Cyx.
Variables dx dy : nat.
Variable nu : R.
Hypothesis Hnu : Rlt 0 nu.
Variables (X : 'M[R]_(n, dx)) (Y : 'M[R]_(n, dy)).

Lemma psd_scov m (A : 'M[R]_(n, m)) : psd (scov A A).
Proof. by rewrite /scov -{2}[sdev A]trmxK; exact: psd_gram. Qed.

Lemma posdef_scalar m : posdef (nu%:M : 'M[R]_m).
Proof.
split; first by rewrite tr_scalar_mx.
move=> z Hz; rewrite bilE mul_scalar_mx dotZr -[(_ * _)%R]/(Rmult _ _).
by apply: Rmult_lt_0_compat => //; exact: dot_gt0.
Qed.

Lemma posdef_reg : posdef (scov X X + nu%:M).
Proof. by rewrite addrC; apply: posdef_add; [exact: posdef_scalar | exact: psd_scov]. Qed.

Lemma cyx_psd : psd (cov_y_given_x nu X Y).
Proof.
have HM := posdef_reg; have UM := posdef_unit HM; have [SM _] := posdef_inv HM.
split.
  rewrite /cov_y_given_x linearB /= [(scov Y Y)^T]scov_sym; congr (_ - _).
  by move: (scov X Y) SM => D SM; rewrite !trmx_mul SM trmxK mulmxA.
move=> w; rewrite bilE /cov_y_given_x mulmxBl.
set A := sdev X; set B := sdev Y; set u := B *m w.
set z := invmx (scov X X + nu%:M) *m (A^T *m u).
have E1 : scov Y Y *m w = B^T *m u by rewrite /scov -mulmxA.
have E2 : (scov X Y)^T *m invmx (scov X X + nu%:M) *m scov X Y *m w = B^T *m (A *m z).
  by rewrite scov_sym /scov /z /u -!mulmxA.
rewrite E1 E2 -mulmxBr dotC -dot_adj2 dotC -/u.
have Ez : A^T *m (A *m z) + nu *: z = A^T *m u.
  rewrite mulmxA -[A^T *m A]/(scov X X) -mul_scalar_mx -mulmxDl /z mulmxA mulmxV // mul1mx //.
have Q : dot u (u - A *m z) = dot (u - A *m z) (u - A *m z) + nu * dot z z.
  have E3 : dot (A *m z) (u - A *m z) = nu * dot z z.
    rewrite dotC dot_adj2 mulmxBr -Ez addrAC subrr add0r dotZl //.
  by rewrite -E3 -dotDl subrK.
rewrite Q; apply: Rplus_le_le_0_compat; first exact: dot_ge0.
apply: Rmult_le_pos; [exact: Rlt_le | exact: dot_ge0].
Qed.

Lemma cyx_posdef : posdef (cov_y_given_x nu X Y + nu%:M).
Proof. by rewrite addrC; apply: posdef_add; [exact: posdef_scalar | exact: cyx_psd]. Qed.

Lemma psd_scale m (a : R) (A : 'M[R]_m) : Rle 0 a -> psd A -> psd (a *: A).
Proof.
move=> Ha [S P]; split; first by rewrite linearZ /= S.
move=> z; rewrite bilE -scalemxAl dotZr -bilE; exact: Rmult_le_pos.
Qed.
Lemma psd_add m (A B : 'M[R]_m) : psd A -> psd B -> psd (A + B).
Proof.
move=> [S P] [S' P']; split; first by rewrite linearD /= S S'.
move=> z; rewrite bilE mulmxDl dotDr -!bilE; exact: Rplus_le_le_0_compat.
Qed.

Lemma cov_alph_psd (a : R) : Rle 0 a -> psd (cov_alph nu a X Y).
Proof.
move=> Ha; have -> : cov_alph nu a X Y
   = (scov X Y)^T *m invmx (scov X X + nu%:M) *m scov X Y + a *: cov_y_given_x nu X Y.
  have E : scov Y Y = (scov X Y)^T *m invmx (scov X X + nu%:M) *m scov X Y + cov_y_given_x nu X Y.
    by rewrite /cov_y_given_x addrC subrK.
  by rewrite /cov_alph E scalerBl scale1r -addrA; congr (_ + _); rewrite addrC subrK.
apply: psd_add; last by apply: psd_scale => //; exact: cyx_psd.
rewrite -{2}[scov X Y]trmxK; apply: psd_congr; apply: posdef_psd; apply: posdef_inv; exact: posdef_reg.
Qed.

Lemma cov_alph_posdef (a : R) : Rle 0 a -> posdef (cov_alph nu a X Y + nu%:M).
Proof. by move=> Ha; rewrite addrC; apply: posdef_add; [exact: posdef_scalar | exact: cov_alph_psd]. Qed.
End Cyx.

(** ** The span *)
Lemma span_ok dx dy (data : 'rV[R]_dy) nu a (X : 'M[R]_(n, dx)) (Y Z : 'M[R]_(n, dy)) :
  moves_in_span X (moved data nu a X Y Z).
Proof.
move=> i; set G := (each n data - Y + perturbs nu a X Y Z).
set W := G *m (invmx (cov_alph nu a X Y + nu%:M))^T *m (sdev Y)^T.
exists (fun k => W i k * (sqrt (INR n - 1))^-1) => j.
have -> : moved data nu a X Y Z = X + W *m sdev X.
  by rewrite /moved /teki_gain -/G trmx_mul scov_sym /scov /W !mulmxA.
rewrite mxE addrC addrA addNr add0r mxE; apply: eq_bigr => k _.
by rewrite sdevE mulrA.
Qed.

(** ** Exactness for a linear model *)
Lemma sdevZ m (a : R) (A : 'M[R]_(n, m)) : sdev (a *: A) = a *: sdev A.
Proof. by rewrite -mul_mx_scalar sdevM mul_mx_scalar. Qed.
Lemma sample_meanZ m (a : R) (A : 'M[R]_(n, m)) : sample_mean (a *: A) = a *: sample_mean A.
Proof. by rewrite -mul_mx_scalar sample_meanM mul_mx_scalar. Qed.

Lemma inv_scale m (a : R) (A : 'M[R]_m) : a <> 0 -> A \in unitmx -> invmx (a *: A) = a^-1 *: invmx A.
Proof.
move=> Ha UA; apply: invmx_uniq; rewrite -scalemxAl -scalemxAr scalerA mulmxV //.
by rewrite mulfV ?scale1r //; exact/eqP.
Qed.

Lemma trD p q (A B : 'M[R]_(p, q)) : (A + B)^T = A^T + B^T.
Proof. exact: linearD. Qed.
Lemma trB p q (A B : 'M[R]_(p, q)) : (A - B)^T = A^T - B^T.
Proof. exact: linearB. Qed.
Lemma trZ p q (a : R) (A : 'M[R]_(p, q)) : (a *: A)^T = a *: A^T.
Proof. exact: linearZ. Qed.

Section Linear.
Variables dx dy : nat.
Variables (H : 'M[R]_(dy, dx)) (V : 'M[R]_dy) (data : 'rV[R]_dy).
Variables (X : 'M[R]_(n, dx)) (Y Z : 'M[R]_(n, dy)) (a : R).
Hypothesis HX : posdef (scov X X).
Hypothesis HV : posdef V.
Hypothesis Ha : Rle 1 a.
Hypothesis HM : matched H V X Y Z.
Let C := scov X X.
Let E := Y - X *m H^T.

Lemma sdevY : sdev Y = sdev X *m H^T + sdev E.
Proof. by rewrite /E sdevD sdevN sdevM addrC subrK. Qed.
Lemma lg_xy : scov X Y = C *m H^T.
Proof.
have [_ [EX _]] := HM; move: EX; rewrite -scovE -/E /scov => EX.
by rewrite /scov sdevY mulmxDr EX addr0 mulmxA.
Qed.
Lemma lg_y : scov Y Y = H *m C *m H^T + V.
Proof.
have [_ [EX [EE _]]] := HM; move: EX EE; rewrite -!scovE -/E => EX EE.
have XE : scov E X = 0 by rewrite -scov_sym EX trmx0.
have T : (sdev X *m H^T + sdev E)^T = H *m (sdev X)^T + (sdev E)^T by rewrite trD trmx_mul trmxK.
rewrite -EE /scov sdevY T mulmxDl !mulmxDr.
move: EX XE; rewrite /scov => EX XE.
rewrite -[H *m _ *m sdev E]mulmxA EX mulmx0 addr0 [(sdev E)^T *m _]mulmxA XE mul0mx add0r.
by rewrite /C /scov !mulmxA.
Qed.
Lemma lg_cyx : cov_y_given_x 0 X Y = V.
Proof.
have UC := posdef_unit HX; have [SC _] := HX.
rewrite /cov_y_given_x lg_xy lg_y raddf0 addr0 -/C trmx_mul trmxK SC -/C.
rewrite -[H *m C *m invmx C]mulmxA mulmxV // mulmx1 mulmxA addrAC subrr add0r //.
Qed.
Lemma lg_cov_alph : cov_alph 0 a X Y + 0%:M = H *m C *m H^T + a *: V.
Proof.
rewrite raddf0 addr0 /cov_alph lg_cyx lg_y scalerBl scale1r -addrA; congr (_ + _).
by rewrite addrC subrK.
Qed.
Lemma lg_chol : y_given_x_chol 0 X Y *m (y_given_x_chol 0 X Y)^T = V.
Proof. by rewrite /y_given_x_chol lg_cyx raddf0 addr0; have [_ [_ ->]] := chol_correct HV. Qed.

Let K := C *m H^T *m invmx (H *m C *m H^T + a *: V).
Lemma lg_gain : teki_gain 0 a X Y = K.
Proof. by rewrite /teki_gain lg_cov_alph lg_xy. Qed.

Let P := perturbs 0 a X Y Z.
Lemma PE : P = sqrt (a - 1) *: (Z *m (y_given_x_chol 0 X Y)^T).
Proof. by rewrite /P /perturbs; have /Rleb_true -> := Ha; rewrite scalemxAl. Qed.

Lemma posdef_aV : posdef (a *: V).
Proof.
have [S Q] := HV; split; first by rewrite linearZ /= S.
move=> z Hz; rewrite bilE -scalemxAl dotZr -bilE; apply: Rmult_lt_0_compat; last exact: Q.
lra.
Qed.

Let X' := moved data 0 a X Y Z.
Lemma lg_cov : scov X' X' = C - K *m H *m C.
Proof.
have [_ [EX [_ [_ [XZ [EZ ZZ]]]]]] := HM; move: EX XZ EZ ZZ; rewrite -!scovE -/E /scov => EX XZ EZ ZZ.
set L := y_given_x_chol 0 X Y.
have SP : sdev P = sqrt (a - 1) *: (sdev Z *m L^T) by rewrite PE sdevZ sdevM.
have XP : (sdev X)^T *m sdev P = 0 by rewrite SP -scalemxAr mulmxA XZ mul0mx scaler0.
have YP : (sdev Y)^T *m sdev P = 0.
  rewrite SP -scalemxAr mulmxA sdevY trD trmx_mul trmxK mulmxDl -mulmxA XZ EZ mulmx0 addr0.
  by rewrite mul0mx scaler0.
have PP : (sdev P)^T *m sdev P = (a - 1) *: V.
  rewrite SP; move: (sdev Z) ZZ => z ZZ.
  rewrite trZ -scalemxAl -scalemxAr scalerA trmx_mul trmxK -mulmxA [z^T *m _]mulmxA ZZ mul1mx.
  rewrite lg_chol; congr (_ *: _); rewrite -RmultE sqrt_sqrt //; lra.
have PX : (sdev P)^T *m sdev X = 0 by rewrite -[LHS]trmxK trmx_mul trmxK XP trmx0.
have PY : (sdev P)^T *m sdev Y = 0 by rewrite -[LHS]trmxK trmx_mul trmxK YP trmx0.
have SX' : sdev X' = sdev X + (sdev P - sdev Y) *m K^T.
  by rewrite /X' /moved lg_gain sdevD sdevM sdevD sdevD sdev_each sdevN add0r addrC [_ + sdev P]addrC addrC.
have XY := lg_xy; have YY := lg_y; rewrite /scov in XY YY.
have YX : (sdev Y)^T *m sdev X = H *m C.
  have [SC _] := HX; by rewrite -[LHS]trmxK trmx_mul trmxK XY trmx_mul trmxK SC.
rewrite /scov SX' trD trmx_mul trmxK mulmxDl !mulmxDr.
have Q1 : (sdev X)^T *m ((sdev P - sdev Y) *m K^T) = - (C *m H^T *m K^T).
  by rewrite mulmxA mulmxBr XP XY sub0r mulNmx.
have Q2 : K *m (sdev P - sdev Y)^T *m sdev X = - (K *m H *m C).
  by rewrite -mulmxA trB mulmxBl PX YX sub0r mulmxN mulmxA.
have Q3 : K *m (sdev P - sdev Y)^T *m ((sdev P - sdev Y) *m K^T) = C *m H^T *m K^T.
  rewrite -mulmxA [(_)^T *m _]mulmxA trB mulmxBl !mulmxBr PP PY YP YY subr0 sub0r opprK.
  rewrite addrC -addrA scalerBl scale1r [V + _]addrC subrK mulmxA; congr (_ *m _).
  by rewrite /K mulmxKV //; apply: posdef_unit; apply: (cond_S _ HX posdef_aV).
by rewrite Q1 Q2 Q3 addrACA [- _ + _]addrC subrr addr0.
Qed.

Lemma lg_mean : (sample_mean X')^T = (sample_mean X)^T + K *m (data^T - H *m (sample_mean X)^T).
Proof.
have [ME [_ [_ [MZ _]]]] := HM.
have MP : sample_mean P = 0 by rewrite PE sample_meanZ sample_meanM MZ mul0mx scaler0.
have MY : sample_mean Y = sample_mean X *m H^T.
  by move: ME; rewrite -/E /E sample_meanD sample_meanN sample_meanM => /eqP; rewrite subr_eq0 => /eqP.
rewrite /X' /moved lg_gain sample_meanD sample_meanM !sample_meanD sample_meanN sample_mean_each -/P MP addr0 MY.
by rewrite trD trmx_mul trmxK trB trmx_mul trmxK.
Qed.

Lemma lg_step : posdef (scov X' X')
  /\ is_tempered_posterior (sample_mean X) (scov X X) H V data (Rinv a) (sample_mean X') (scov X' X').
Proof.
have HaV := posdef_aV; rewrite lg_cov.
have PD := cond_posdef H HX HaV; have [I1 I2] := cond_info H HX HaV.
rewrite -/C -/K in PD I1 I2.
have UV := posdef_unit HV.
have na : a <> 0 by move=> Z0; move: Ha; rewrite Z0 => /(Rlt_le_trans _ _ _ Rlt_0_1) /Rlt_irrefl.
have EI : H^T *m invmx (a *: V) *m H = Rinv a *: (H^T *m invmx V *m H).
  by rewrite inv_scale // -scalemxAr -scalemxAl.
split=> //; rewrite EI in I1; split=> //.
rewrite -/C; pose Lam : 'M[R]_dx := invmx C + Rinv a *: (H^T *m invmx V *m H).
rewrite -/Lam; have J : Lam *m (C - K *m H *m C) = 1%:M by exact: mulmx1C I1.
have LK : Lam *m K = Rinv a *: (H^T *m invmx V).
  by rewrite -I2 mulmxA [Lam *m _]mulmxA J mul1mx inv_scale // -scalemxAr.
rewrite lg_mean mulmxDr mulmxA LK mulmxBr {1}/Lam mulmxDl.
rewrite -!scalemxAl !mulmxA addrAC -!addrA; congr (_ + _).
by rewrite addNr addr0.
Qed.
End Linear.
End Moments.

(** ** Composition of tempered posteriors *)
Lemma tempered_comp d e (m0 m1 m2 : 'rV[R]_d) (C0 C1 C2 : 'M[R]_d) (H : 'M[R]_(e, d)) (V : 'M[R]_e) (y : 'rV[R]_e) (t u : R) :
  is_tempered_posterior m0 C0 H V y t m1 C1 -> is_tempered_posterior m1 C1 H V y u m2 C2 ->
  is_tempered_posterior m0 C0 H V y (Rplus t u) m2 C2.
Proof.
move=> [A1 A2] [B1 B2].
have I1 : invmx C1 = invmx C0 + t *: (H^T *m invmx V *m H) by exact: invmx_uniq.
have E : invmx C0 + Rplus t u *: (H^T *m invmx V *m H) = invmx C1 + u *: (H^T *m invmx V *m H).
  by rewrite I1 -addrA -scalerDl.
split; rewrite E // B2 I1 A2 -addrA -scalerDl //.
Qed.

Lemma tempered_zero d e (m : 'rV[R]_d) (C : 'M[R]_d) (H : 'M[R]_(e, d)) (V : 'M[R]_e) (y : 'rV[R]_e) :
  posdef C -> is_tempered_posterior m C H V y (IZR 0) m C.
Proof.
move=> HC; have E p (M : 'M[R]_(d, p)) : IZR 0 *: M = 0 by exact: scale0r.
by split; rewrite E addr0 ?mulmxV ?E ?addr0 //; exact: posdef_unit.
Qed.

(** ** Termination with [term_std = 0] *)
Lemma terminateE n dx dy (constrain : 'M[R]_(n, dx) -> 'M[R]_(n, dx)) prior_std tmax mi (s : tstate n dx dy) e :
  (0 < dx)%N ->
  terminate constrain (IZR 0) prior_std tmax mi s e = Rleb tmax (temperature s) || Nat.leb mi (t_iter e).
Proof.
move=> Hd; rewrite /terminate.
have -> : [forall j : 'I_dx, Rltb (column_std (constrain (value s)) j) (IZR 0 * prior_std j)] = false.
  apply/negbTE; rewrite negb_forall; apply/existsP; exists (Ordinal Hd).
  rewrite /column_std; rewrite Rmult_0_l.
  by have /Rltb_false -> : Rle 0 (sqrt (scov (constrain (value s)) (constrain (value s)) (Ordinal Hd) (Ordinal Hd)))
    by exact: sqrt_pos.
rewrite orbF; congr (_ || _); apply/idP/idP.
  by move=> /leP; exact: (proj2 (PeanoNat.Nat.leb_le _ _)).
by move/(proj1 (PeanoNat.Nat.leb_le _ _)) => H; apply/leP.
Qed.

(** ** Which keys are read *)
Lemma simulate_ext n dx dy (lik lik' : 'rV[R]_dx -> key -> 'rV[R]_dy) (X : 'M[R]_(n, dx)) keys :
  (forall i v, lt i n -> lik v (keys i) = lik' v (keys i)) -> simulate lik X keys = simulate lik' X keys.
Proof. by move=> H; apply/matrixP => i j; rewrite !mxE H //; apply/ltP. Qed.

(** ** Ensembles with equal pseudo-likelihoods *)
Lemma potentials_in n dy data (Y : 'M[R]_(n, dy)) prec v : List.In v (pseudo_potentials data Y prec) ->
  exists i : 'I_n, v = Rmult (Rdiv 1 2) ((row i (Y - each n data) *m prec *m (row i (Y - each n data))^T) ord0 ord0).
Proof. by move/List.in_map_iff => [i [<- _]]; exists i. Qed.

(** two particles in one dimension, data 0 and unit precision *)
Definition col2 (a b : R) : 'M[R]_(2, 1) := \matrix_(i, j) (if i == 0%N :> nat then a else b).
Lemma potentials2 a b : pseudo_potentials 0 (col2 a b) 1%:M
  = [:: Rmult (Rdiv 1 2) (Rmult a a); Rmult (Rdiv 1 2) (Rmult b b)].
Proof.
have E : enum 'I_2 = [:: ord0; lift ord0 ord0].
  by apply: (inj_map val_inj); rewrite val_enum_ord.
rewrite /pseudo_potentials E /=; congr [:: _; _]; congr (Rmult _ _).
all: by rewrite mulmx1 !mxE big_ord_recl big_ord0 addr0 !mxE big_ord_recl big_ord0 !mxE /= mulr0 addr0 subr0.
Qed.
