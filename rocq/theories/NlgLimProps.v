(** C91, many particles: for linear transitions the sample moments of the ensemble
    Kalman filter tend to the moments of the exact filtering law. *)
From Coq Require Import Reals Lra.
From mathcomp Require Import ssreflect ssrfun ssrbool eqtype ssrnat seq choice fintype bigop ssralg matrix.
From Verif Require Import XR Keys RStruct BfgsModel BfgsSpec BfgsProofs LinAlg WeightsModel GaussModel GaussSpec GaussProofs GaussProps
  KalmanSpec KalmanProofs TekiModel TekiSpec TekiProofs TekiProps NlgModel NlgSpec NlgProofs NlgProps LimitSpec NlgLimProofs.
Set Implicit Arguments.
Unset Strict Implicit.
Import GRing.Theory.
Local Open Scope ring_scope.

(** The draws of a run of [m] steps: the initial one ([None]), those of the
    transitions ([Some (false, j)]) and those of the observations
    ([Some (true, j)]). *)
Definition draw_width (d e m : nat) (i : option (bool * 'I_m)) : nat :=
  match i with Some (true, _) => e | _ => d end.
Definition run_draws (d e m n : nat) (nx : key -> 'M[R]_(n, d)) (ny : key -> 'M[R]_(n, e)) (ki : key) (kx ky : nat -> key)
    (i : option (bool * 'I_m)) : 'M[R]_(n, draw_width d e i) :=
  match i return 'M[R]_(n, draw_width d e i) with
  | None => nx ki
  | Some (false, j) => nx (kx j)
  | Some (true, j) => ny (ky j)
  end.

Section Initial.
Variables (d e : nat) (M : nlg d e) (v : 'cV[R]_d) (w : 'cV[R]_e).
Hypothesis Hv : forall i, Rlt 0 (v i ord0).
Hypothesis Ev : initial_covariance M = diag_mx v^T.
Hypothesis Hw : forall i, Rlt 0 (w i ord0).
Hypothesis Ew : likelihood_covariance M = diag_mx w^T.
Variables (F : nat -> 'M[R]_d) (Q : nat -> 'M[R]_d) (y : nat -> 'cV[R]_e).
Let B := invmx (jcholesky (init_cond_prec M)).
Lemma initial_filtering :
  is_filtering (LGM (initial_mean M) (initial_covariance M) F Q (fun=> likelihood_matrix M) (fun=> likelihood_covariance M)) 0 y
    (initial_conditioned_mean M (startup M) (y 0%N)) (B^T *m B).
Proof.
have H0 : posdef (initial_covariance M) by rewrite Ev; exact: diag_posdef.
have HV : posdef (likelihood_covariance M) by rewrite Ew; exact: diag_posdef.
have HD : (chol (initial_covariance M))^T = chol (initial_covariance M) by rewrite Ev chol_diag_sym.
have DV : (chol (likelihood_covariance M))^T = chol (likelihood_covariance M) by rewrite Ew chol_diag_sym.
have EV : (chol (likelihood_covariance M))^T *m chol (likelihood_covariance M) = likelihood_covariance M.
  by rewrite -{2}DV; have := csqrt_gram HV; rewrite /csqrt DV.
have [_ EA] := icov_sqrt H0 HD HV; rewrite EV in EA.
have EM := initial_meanE (y 0%N) H0 HV; cbv zeta in EM.
rewrite /B EA EM; split; first by exact: cond_posdef.
exists (nld (y 0%N) (likelihood_matrix M *m initial_mean M)
  (likelihood_matrix M *m initial_covariance M *m (likelihood_matrix M)^T + likelihood_covariance M)).
exists (fun _ => Kern 0 0 1%:M); split; first by move=> _; apply: posdef_scalar; exact: Rlt_0_1.
move=> x; rewrite big_geq // addr0 joint0 /=.
by have := cond_bayes (likelihood_matrix M) H0 HV (x 0%N) (initial_mean M) (y 0%N) 0; rewrite !addr0.
Qed.
End Initial.

(** For runs of the filter with [n N] particles, any sequence of numbers [n N],
    there are different keys such that, when the draws at these keys have sample
    moments that tend to those of independent standard normal draws, the sample
    mean and covariance of the ensemble tend, at every step, to the mean and
    covariance of the law of the state given the observations so far.  (Diagonal
    initial and observation covariances, for the reason in C90.) *)
Theorem C91_limit d e (M : nlg d e) (v : 'cV[R]_d) (w : 'cV[R]_e) (G : R -> R -> 'M[R]_d) (n : nat -> nat)
    thr k y0 t0 (ys : seq ('cV[R]_e * R)) :
  (forall N, (1 < n N)%N) -> Rle thr 1 ->
  (forall i, Rlt 0 (v i ord0)) -> initial_covariance M = diag_mx v^T ->
  (forall i, Rlt 0 (w i ord0)) -> likelihood_covariance M = diag_mx w^T ->
  posdef (transition_covariance M) -> (forall x s0 s1, transition_function M x s0 s1 = G s0 s1 *m x) ->
  let t i := nth 0 (t0 :: [seq yt.2 | yt <- ys]) i in
  let y i := nth 0 (y0 :: [seq yt.1 | yt <- ys]) i in
  let S := LGM (initial_mean M) (initial_covariance M) (fun i => G (t i.-1) (t i)) (fun=> transition_covariance M)
             (fun=> likelihood_matrix M) (fun=> likelihood_covariance M) in
  exists (ki : nat -> key) (kx ky : nat -> nat -> key),
  (forall N, injective (kx N) /\ injective (ky N) /\ (forall i j, kx N i <> ky N j)
     /\ (forall i, kx N i <> ki N) /\ (forall i, ky N i <> ki N))
  /\ forall (nx : forall N, key -> 'M[R]_(n N, d)) (ny : forall N, key -> 'M[R]_(n N, e))
       (categorical : forall N, key -> seq xr -> 'I_(n N) -> 'I_(n N)) (s0 : forall N, prow d (n N)),
  standard_limit (fun N => @run_draws d e (size ys) (n N) (nx N) (ny N) (ki N) (kx N) (ky N)) ->
  let X N j := pvalue (nth (s0 N) (pf_run (enkf_initial M (nx N)) (enkf_propose M (nx N) (ny N)) (categorical N) thr k y0 t0 ys) j) in
  forall j, (j <= size ys)%N ->
  exists mu P, is_filtering S j y mu P
  /\ tends (fun N => (sample_mean (X N j))^T) mu /\ tends (fun N => sample_cov (X N j) (X N j)) P.
Proof.
move=> Hn Ht Hv Ev Hw Ew HQ HG t y S.
have HV : posdef (likelihood_covariance M) by rewrite Ew; exact: diag_posdef.
exists (fun N => run_ki (n N) k), (fun N => run_kx (n N) (size ys) k), (fun N => run_ky (n N) (size ys) k).
split.
  move=> N; split; first by move=> i j [].
  split; first by move=> i j [].
  split; first by move=> i j [].
  by split=> i [].
move=> nx ny cat s0 [M0 [V1 C0]] X.
have R_ N := enkf_run_at M k y0 t0 ys (nx N) (ny N) (cat N) (s0 N) (ltnW (Hn N)) Ht.
have E0 N : X N 0%N = each (n N) (initial_conditioned_mean M (startup M) y0)^T
    + nx N (run_ki (n N) k) *m invmx (jcholesky (init_cond_prec M)).
  by have [_ [E _]] := R_ N.
have ES N j : (j < size ys)%N -> X N j.+1
    = enkf_analysis M (ny N) (enkf_forecast M (nx N) (X N j) (t j) (t j.+1) (run_kx (n N) (size ys) k j)) (y j.+1) (run_ky (n N) (size ys) k j).
  move=> Hj; have [_ [_ [Hp Hs]]] := R_ N; have [_ [_ Et]] := Hp j (ltnW Hj).
  rewrite /X (Hs j Hj) Et /t /y /= !(nth_map (0, 0)) //.
pose Z N := @run_draws d e (size ys) (n N) (nx N) (ny N) (run_ki (n N) k) (run_kx (n N) (size ys) k) (run_ky (n N) (size ys) k).
have V1' i : tends (fun N => scov (Z N i) (Z N i)) 1%:M by apply: tends_ext (V1 i) => N; rewrite scovE.
have C0' i j : i <> j -> tends (fun N => scov (Z N i) (Z N j)) 0.
  by move=> Hij; apply: tends_ext (C0 i j Hij) => N; rewrite scovE.
pose later j (i : option (bool * 'I_(size ys))) := if i is Some bj then (j <= bj.2)%N else false.
suff main j : (j <= size ys)%N -> exists mu P, is_filtering S j y mu P
    /\ tends (fun N => (sample_mean (X N j))^T) mu /\ tends (fun N => scov (X N j) (X N j)) P
    /\ forall i, later j i -> tends (fun N => scov (X N j) (Z N i)) 0.
  move=> j Hj; have [mu [P [H1 [H2 [H3 _]]]]] := main j Hj; exists mu, P; split=> //; split=> //.
  by apply: tends_ext H3 => N; rewrite scovE.
elim: j => [|j IH] Hj.
  pose B := invmx (jcholesky (init_cond_prec M)).
  have CX r N (W : 'M[R]_(n N, r)) : scov (X N 0%N) W = B^T *m scov (Z N None) W.
    by rewrite E0 /scov sdevD sdev_each // add0r sdevM trmx_mul mulmxA.
  exists (initial_conditioned_mean M (startup M) (y 0%N)), (B^T *m B).
  split; first exact: (initial_filtering Hv Ev Hw Ew).
  split.
    apply: (@tends_ext _ _ (fun N => initial_conditioned_mean M (startup M) y0 + B^T *m (sample_mean (Z N None))^T)).
      by move=> N; rewrite E0 sample_meanD sample_mean_each ?(ltnW (Hn N)) // sample_meanM trD trmxK trmx_mul.
    rewrite -[X in tends _ X]addr0; apply: tendsD; first exact: tends_const.
    apply: (@tends0M _ _ _ _ _ B^T); first exact: tends_const.
    by rewrite -trmx0; apply: tendsT; exact: (M0 None).
  split.
    apply: (@tends_ext _ _ (fun N => B^T *m (scov (Z N None) (Z N None) *m B))).
      by move=> N; rewrite CX -[in RHS](scov_sym (X N 0%N) (Z N None)) CX trmx_mul trmxK scov_sym.
    apply: tendsM; first exact: tends_const.
    by rewrite -[X in tends _ X]mul1mx; apply: tendsM; [exact: (V1' None) | exact: tends_const].
  move=> i Hi; apply: (@tends_ext _ _ (fun N => B^T *m scov (Z N None) (Z N i))); first by move=> N; rewrite CX.
  apply: (@tends0M _ _ _ _ _ B^T); first exact: tends_const.
  by apply: (C0' None i) => E; rewrite -E in Hi.
have [mu [P [HF [Hm [HC HX]]]]] := IH (ltnW Hj).
pose jj := Ordinal Hj; pose ix : option (bool * 'I_(size ys)) := Some (false, jj); pose iy : option (bool * 'I_(size ys)) := Some (true, jj).
have Lx : later j ix by rewrite /later /=.
have Ly : later j iy by rewrite /later /=.
have Dxy : ix <> iy by [].
have [HP _] := HF.
pose K' := (@analysis_mean _ _ M HQ HV n Hn nx ny (fun N => run_kx (n N) (size ys) k j) (fun N => run_ky (n N) (size ys) k j)
  (fun N => X N j) mu P HP Hm HC (M0 ix) (M0 iy) (V1' ix) (HX _ Lx) (G (t j) (t j.+1)) (t j) (t j.+1) (fun x => HG x _ _) (y j.+1)).
have TM := K'; move: TM => {K'} TM.
have TC := @analysis_cov _ _ M HQ HV n Hn nx ny (fun N => run_kx (n N) (size ys) k j) (fun N => run_ky (n N) (size ys) k j)
  (fun N => X N j) P HP HC (V1' ix) (V1' iy) (HX _ Lx) (HX _ Ly) (C0' _ _ Dxy) (G (t j) (t j.+1)) (t j) (t j.+1) (fun x => HG x _ _) (y j.+1).
have := @filtering_step _ _ S j y mu P HQ HV HF; cbv zeta => HF'.
eexists; eexists; split; first exact: HF'.
split; first by apply: tends_ext TM => N; rewrite ES.
split; first by apply: tends_ext TC => N; rewrite ES.
move=> i Hi.
have TX := @analysis_cross _ _ M HQ HV n Hn nx ny (fun N => run_kx (n N) (size ys) k j) (fun N => run_ky (n N) (size ys) k j)
  (fun N => X N j) P HP HC (V1' ix) (HX _ Lx) (G (t j) (t j.+1)) (t j) (t j.+1) (fun x => HG x _ _) (y j.+1) _ (fun N => Z N i).
have Li : later j i by case: i Hi {TX} => // -[b a] /=; exact: ltnW.
have Nx : ix <> i by move=> E; move: Hi; rewrite -E /later /= ltnn.
have Ny : iy <> i by move=> E; move: Hi; rewrite -E /later /= ltnn.
by apply: tends_ext (TX (HX _ Li) (C0' _ _ Nx) (C0' _ _ Ny)) => N; rewrite ES.
Qed.
Print Assumptions C91_limit.

(** four particles and one step, with draws that are only standard in the limit:
    their standard deviations are [1 + 1/(N+1)] *)
Definition near1 (N : nat) : 'M[R]_1 := (1 + / INR N.+1)%R%:M.
Lemma near1_tends : tends near1 1%:M.
Proof.
move=> i j; rewrite /near1 !ord1 !mxE /=.
have H : Un_cv (fun N => Rplus 1 (/ INR N.+1)%R) (Rplus 1 0).
  apply: CV_plus; first exact: cv_const.
  by apply: cv_ext RinvN_cv => N; rewrite S_INR.
by rewrite Rplus_0_r in H; apply: cv_ext H => N; rewrite mxE.
Qed.
Lemma near_mean (z : 'M[R]_(4, 1)) : sample_mean z = 0 -> tends (fun N => sample_mean (z *m near1 N)) 0.
Proof. by move=> E; apply: tends_ext (@tends_const _ _ 0) => N; rewrite sample_meanM E mul0mx. Qed.
Lemma near_cov (z z' : 'M[R]_(4, 1)) L : sample_cov z z' = L -> tends (fun N => sample_cov (z *m near1 N) (z' *m near1 N)) L.
Proof.
move=> E; apply: (@tends_ext _ _ (fun N => (near1 N)^T *m (L *m near1 N))).
  by move=> N; rewrite -E -!scovE // /scov !sdevM trmx_mul !mulmxA.
rewrite -[X in tends _ X]mul1mx -[in X in tends _ (X *m _)]trmx1.
apply: tendsM; first by apply: tendsT; exact: near1_tends.
by rewrite -[X in tends _ X]mulmx1; apply: tendsM; [exact: tends_const | exact: near1_tends].
Qed.
Example C91_limit_example (y0 y1 : 'cV[R]_1) (k : key) (ki : nat -> key) (kx ky : nat -> nat -> key) :
  (forall N i, kx N i <> ki N) ->
  (forall i, Rlt 0 ((const_mx (IZR 2) : 'cV[R]_1) i ord0)) /\ initial_covariance exK = diag_mx (const_mx (IZR 2))^T
  /\ (forall i, Rlt 0 ((const_mx (IZR 4) : 'cV[R]_1) i ord0)) /\ likelihood_covariance exK = diag_mx (const_mx (IZR 4))^T
  /\ posdef (transition_covariance exK) /\ (forall x s0 s1, transition_function exK x s0 s1 = (IZR 2)%:M *m x)
  /\ exists (nx ny : forall N : nat, key -> 'M[R]_(4, 1)),
     standard_limit (fun N => @run_draws 1 1 (size [:: (y1, IZR 1)]) 4 (nx N) (ny N) (ki N) (kx N) (ky N))
     /\ forall N, sample_cov (nx N (ki N)) (nx N (ki N)) <> 1%:M.
Proof.
move=> Hk.
split; first by move=> i; rewrite mxE; lra.
split; first by [].
split; first by move=> i; rewrite mxE; lra.
split; first by [].
split; first by apply: posdef_scalar; exact: Rlt_0_1.
split; first by [].
have [[M1 [M2 M3]] [[C12 [C13 C23]] [C11 [C22 C33]]]] := z_moments.
have sym (a b : 'M[R]_(4, 1)) : sample_cov a b = 0 -> sample_cov b a = 0.
  by move=> E; rewrite -scovE // -scov_sym scovE // E trmx0.
pose nx (N : nat) q := (if key_eq_dec q (ki N) then z1 else z2) *m near1 N.
pose ny (N : nat) (q : key) := z3 *m near1 N.
have Ei N : nx N (ki N) = z1 *m near1 N by rewrite /nx; case: key_eq_dec.
have Ex N j : nx N (kx N j) = z2 *m near1 N by rewrite /nx; case: key_eq_dec => // E; case: (Hk N j).
exists nx, ny; split; last first.
  move=> N; rewrite Ei -scovE // /scov !sdevM trmx_mul -mulmxA [_ *m (_ *m near1 N)]mulmxA.
  have := scovE (isT : (1 < 4)%N) z1 z1; rewrite C11 /scov => ->; rewrite mul1mx /near1 tr_scalar_mx -scalar_mxM.
  move/matrixP/(_ ord0 ord0); rewrite !mxE /= => E.
  rewrite !mulr1n in E.
  have P : Rlt 0 (/ INR N.+1) by apply: Rinv_0_lt_compat; apply: lt_0_INR; apply/ltP.
  have E' : Rmult (Rplus 1 (/ INR N.+1)) (Rplus 1 (/ INR N.+1)) = IZR 1 by exact: E.
  by move: P E'; move: (/ INR N.+1)%R => x; nra.
split.
  case=> [[[] j]|] /=; [exact: near_mean M3 | |].
    by apply: tends_ext (near_mean M2) => N; rewrite Ex.
  by apply: tends_ext (near_mean M1) => N; rewrite Ei.
split.
  case=> [[[] j]|] /=; [exact: near_cov C33 | |].
    by apply: tends_ext (near_cov C22) => N; rewrite Ex.
  by apply: tends_ext (near_cov C11) => N; rewrite Ei.
case=> [[[] j]|]; case=> [[[] j']|] //= H.
- by case: H; rewrite (ord1 j) (ord1 j').
- by apply: tends_ext (near_cov (sym _ _ C23)) => N; rewrite Ex.
- by apply: tends_ext (near_cov (sym _ _ C13)) => N; rewrite Ei.
- by apply: tends_ext (near_cov C23) => N; rewrite Ex.
- by case: H; rewrite (ord1 j) (ord1 j').
- by apply: tends_ext (near_cov (sym _ _ C12)) => N; rewrite Ei Ex.
- by apply: tends_ext (near_cov C13) => N; rewrite Ei.
- by apply: tends_ext (near_cov C12) => N; rewrite Ei Ex.
Qed.
