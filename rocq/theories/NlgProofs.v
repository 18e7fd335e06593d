(** Lemmas for nonlinear Gaussian filters. *)
From Coq Require Import Reals Lra.
From mathcomp Require Import ssreflect ssrfun ssrbool eqtype ssrnat seq choice fintype bigop ssralg matrix.
From Verif Require Import XR Keys RStruct BfgsModel BfgsSpec BfgsProofs LinAlg WeightsModel WeightsProps GaussModel GaussSpec GaussProofs
  KalmanSpec KalmanProofs TekiModel TekiSpec TekiProofs NlgModel NlgSpec.
Set Implicit Arguments.
Unset Strict Implicit.
Import GRing.Theory.
Local Open Scope ring_scope.

Arguments chol : simpl never.

(** ** Factors *)
Lemma symmetrised_sym m (A : 'M[R]_m) : A^T = A -> symmetrised A = A.
Proof.
move=> S; rewrite /symmetrised S -mulr2n -scaler_nat scalerA.
have -> : Rdiv 1 2 * 2%:R = 1 :> R by rewrite -[2%:R]/(Rplus 1 1); toR; field.
by rewrite scale1r.
Qed.
Lemma jcholesky_posdef m (A : 'M[R]_m) : posdef A -> jcholesky A = chol A.
Proof. by move=> [S _]; rewrite /jcholesky symmetrised_sym. Qed.
Lemma csqrt_gram m (C : 'M[R]_m) : posdef C -> csqrt C *m (csqrt C)^T = C.
Proof. by move=> HC; have [_ [_ ->]] := chol_correct HC. Qed.

Lemma gram_HS d e p (H : 'M[R]_(e, d)) (S : 'M[R]_(d, p)) : (H *m S) *m (H *m S)^T = H *m (S *m S^T) *m H^T.
Proof. by rewrite trmx_mul !mulmxA. Qed.

Lemma kalman_gainE d e p (S : 'M[R]_(d, p)) (H : 'M[R]_(e, d)) (L : 'M[R]_e) :
  kalman_gain S H L None = S *m S^T *m H^T *m invmx (H *m (S *m S^T) *m H^T + L *m L^T).
Proof. by rewrite /kalman_gain gram_HS. Qed.

(** ** Densities *)
Lemma gd_gt0 d (x m : 'cV[R]_d) C : posdef C -> Rlt 0 (gd x m C).
Proof.
move=> HC; rewrite /gd /gauss_density; apply: Rmult_lt_0_compat; last exact: exp_pos.
apply: Rdiv_lt_0_compat; apply: sqrt_lt_R0; first by apply: posdef_det; exact: posdef_inv.
by apply: pow_lt; exact: twopi_gt0.
Qed.
Lemma gd_nld d (x m : 'cV[R]_d) C : posdef C -> gd x m C = exp (- nld x m C).
Proof. by move=> HC; rewrite /nld Ropp_involutive exp_ln //; exact: gd_gt0. Qed.
Lemma nld_gd d (x m : 'cV[R]_d) C : nld x m C = (- ln (gd x m C))%R.
Proof. by []. Qed.

Lemma conditional_nld d e (m : 'cV[R]_d) P (H : 'M[R]_(e, d)) V y mu C c :
  posdef P -> posdef V -> posdef C ->
  (forall x, Rplus (nld x m P) (nld y (H *m x) V) = Rplus c (nld x mu C)) ->
  conditional m P H V y mu C (exp (- c)).
Proof.
move=> HP HV HC E; split=> //; split; first exact: exp_pos.
by move=> x; rewrite !gd_nld // -!exp_plus; congr exp; have := E x; lra.
Qed.

Lemma conditional_unique d e (m : 'cV[R]_d) P (H : 'M[R]_(e, d)) V y mu C c mu' C' c' :
  conditional m P H V y mu C c -> conditional m P H V y mu' C' c' -> mu = mu' /\ C = C' /\ c = c'.
Proof.
move=> [HC [Hc E]] [HC' [Hc' E']].
have Q : forall x, Rplus (- ln c) (nld x mu C) = Rplus (- ln c') (nld x mu' C').
  move=> x; rewrite !nld_gd; have := E x; rewrite E'.
  have G := gd_gt0 x mu HC; have G' := gd_gt0 x mu' HC'; move: (gd x mu C) (gd x mu' C') G G' => g g' G G'.
  move=> /(congr1 ln); rewrite !ln_mult // -!RoppE; lra.
have [-> [-> L]] := nld_inj HC HC' Q; split=> //; split=> //; apply: ln_inv => //; lra.
Qed.

Lemma conditional_ok d e (m : 'cV[R]_d) P (H : 'M[R]_(e, d)) V y : posdef P -> posdef V ->
  let S := H *m P *m H^T + V in let K := P *m H^T *m invmx S in
  conditional m P H V y (m + K *m (y - H *m m)) (P - K *m H *m P) (gd y (H *m m) S).
Proof.
move=> HP HV S K; have HS : posdef S by exact: cond_S.
rewrite gd_nld //; apply: conditional_nld => //; first exact: cond_posdef.
by move=> x; have := cond_bayes H HP HV x m y 0; rewrite !addr0.
Qed.

Lemma drawn_affine d (A : 'M[R]_d) mu C (f : 'cV[R]_d -> 'cV[R]_d) : A \in unitmx -> A *m A^T = C ->
  (forall z, f z = A *m z + mu) -> drawn_from f mu C.
Proof. by move=> U <- E; exists A; split=> // z; rewrite E; split=> //; exact: gauss_affine. Qed.

Lemma drawn_unique d (f : 'cV[R]_d -> 'cV[R]_d) mu C mu' C' : posdef C -> posdef C' ->
  drawn_from f mu C -> drawn_from f mu' C' -> mu = mu' /\ C = C'.
Proof.
move=> HC HC' [A [U E]] [A' [U' E']].
have Em : mu = mu'.
  by have [E1 _] := E 0; have [E2 _] := E' 0; move: E1; rewrite E2 !mulmx0 !add0r.
subst mu'.
have EA : A = A'.
  apply/matrixP => i j; have [E1 _] := E (delta_mx j ord0); have [E2 _] := E' (delta_mx j ord0).
  by move: E1; rewrite E2 -!colE => /addIr /matrixP /(_ i ord0); rewrite !mxE.
subst A'; split=> //.
have Dn : Rabs (\det A) <> IZR 0 by apply: Rabs_no_R0; move: U; rewrite unitmxE unitfE => /eqP.
have Q : forall x, Rplus 0 (nld x mu C) = Rplus 0 (nld x mu C').
  move=> x; rewrite !Rplus_0_l !nld_gd; congr (Ropp (ln _)).
  have [Ex Ez] := E (invmx A *m (x - mu)); have [_ Ez'] := E' (invmx A *m (x - mu)).
  rewrite Ex mulKVmx // subrK in Ez; rewrite Ex mulKVmx // subrK in Ez'.
  by apply: (Rmult_eq_reg_r _ _ _ _ Dn); rewrite Ez Ez'.
by have [_ [-> _]] := nld_inj HC HC' Q.
Qed.

(** the potential from a root of the precision *)
Lemma potentialE d (x m : 'cV[R]_d) (Q : 'M[R]_d) : Q \in unitmx ->
  potential x m Q (\det (Q *m Q^T)) = nld x m (invmx (Q *m Q^T)).
Proof.
move=> U; rewrite /potential (@sqrt_potential _ x (IVector m) (PMatrix Q)) //; last by left.
by rewrite /nld invmxK.
Qed.
Lemma potential_chol d (x m : 'cV[R]_d) (P : 'M[R]_d) : posdef P ->
  potential x m (chol P) (\det P) = nld x m (invmx P).
Proof.
by move=> HP; have [_ [_ E]] := chol_correct HP; rewrite -{2 3}E potentialE //; exact: chol_unit.
Qed.

(** ** The optimal proposal *)
Section Opt.
Variables d e : nat.
Variable M : nlg d e.
Notation H := (likelihood_matrix M).
Notation Q := (transition_covariance M).
Notation V := (likelihood_covariance M).
Hypothesis HQ : posdef Q.
Hypothesis HV : posdef V.
Let S := H *m Q *m H^T + V.
Let K := Q *m H^T *m invmx S.
Let C := Q - K *m H *m Q.

Lemma weight_precisionE : weight_precision M = invmx S.
Proof. by rewrite /weight_precision gram_HS !csqrt_gram. Qed.
Lemma opt_gainE : proposal_kalman_gain (startup M) = K.
Proof. by rewrite /= /kalman_gain weight_precisionE csqrt_gram. Qed.
Lemma S_posdef : posdef S. Proof. exact: cond_S. Qed.
Lemma C_posdef : posdef C. Proof. exact: cond_posdef. Qed.
Lemma opt_covE : Q - proposal_kalman_gain (startup M) *m H *m Q = C.
Proof. by rewrite opt_gainE. Qed.
Lemma opt_cov_sqrtE : proposal_covariance_sqrt (startup M) = chol C.
Proof. by have := opt_covE; rewrite /= => ->; rewrite jcholesky_posdef //; exact: C_posdef. Qed.
Lemma opt_prec_sqrtE : proposal_precision_sqrt (startup M) = invmx (chol C).
Proof. by have := opt_covE; rewrite /= => ->; rewrite jcholesky_posdef //; exact: C_posdef. Qed.
Lemma opt_prec_detE : proposal_precision_det (startup M) = Rdiv 1 (\det C).
Proof. by have := opt_covE; rewrite /= => ->. Qed.

Lemma conditioned_meanE x0 t0 y t1 :
  conditioned_mean M (startup M) x0 t0 y t1
  = transition_function M x0 t0 t1 + K *m (y - H *m transition_function M x0 t0 t1).
Proof.
rewrite /conditioned_mean opt_gainE; congr (_ + _); rewrite trmx_mul trmxK; congr (_ *m _).
by rewrite linearB /= trmx_mul !trmxK.
Qed.

Lemma opt_weightE x0 t0 x1 y t1 :
  opt_intermediate_log_weight M (startup M) x0 t0 x1 y t1
  = (- nld y (H *m transition_function M x0 t0 t1) S)%R.
Proof.
rewrite /opt_intermediate_log_weight trmx_mul !trmxK; congr (Ropp _).
rewrite [weight_precision_sqrt _]/= [weight_precision_det _]/= weight_precisionE.
have HI := posdef_inv S_posdef; rewrite jcholesky_posdef // potential_chol //.
by rewrite invmxK.
Qed.

Lemma opt_conditional x0 t0 x1 y t1 :
  conditional (transition_function M x0 t0 t1) Q H V y (conditioned_mean M (startup M) x0 t0 y t1) C
    (exp (opt_intermediate_log_weight M (startup M) x0 t0 x1 y t1)).
Proof.
rewrite opt_weightE conditioned_meanE.
have := conditional_ok (transition_function M x0 t0 t1) H y HQ HV.
by rewrite /= gd_nld //; exact: S_posdef.
Qed.

Lemma opt_drawn x0 t0 y t1 :
  drawn_from (opt_proposal_sample M (startup M) x0 t0 y t1) (conditioned_mean M (startup M) x0 t0 y t1) C.
Proof.
apply: (@drawn_affine _ (chol C)); [exact: chol_unit C_posdef|exact: csqrt_gram C_posdef|].
by move=> z; rewrite /opt_proposal_sample opt_cov_sqrtE trmx_mul !trmxK addrC.
Qed.

(** the potential has the factor transposed *)
Lemma opt_potentialE x0 t0 x1 y t1 :
  opt_proposal_potential M (startup M) x0 t0 x1 y t1
  = nld x1 (conditioned_mean M (startup M) x0 t0 y t1) ((chol C)^T *m chol C).
Proof.
have U := chol_unit C_posdef; have U' : (chol C)^T \in unitmx by rewrite unitmx_tr.
rewrite /opt_proposal_potential opt_prec_sqrtE opt_prec_detE.
have E : invmx (chol C) *m (invmx (chol C))^T = invmx ((chol C)^T *m chol C).
  by rewrite invmx_mul // trmx_inv.
have -> : Rdiv 1 (\det C) = \det (invmx (chol C) *m (invmx (chol C))^T).
  rewrite E det_inv det_mulmx; have := csqrt_gram C_posdef; rewrite /csqrt => E'.
  rewrite -{1}E' det_mulmx mulrC /Rdiv Rmult_1_l RinvE //.
by rewrite potentialE ?unitmx_inv // E invmxK.
Qed.
End Opt.

(** ** Initial particles *)
Lemma chol_diag d (v : 'cV[R]_d) : (forall i, Rlt 0 (v i ord0)) ->
  chol (diag_mx v^T) = diag_mx (\row_i sqrt (v i ord0)).
Proof.
move=> Hv; apply: chol_unique; split; [|split].
- by move=> i j Hij; rewrite mxE; case: eqP => // E; rewrite E ltnn in Hij.
- by move=> i; rewrite !mxE eqxx mulr1n; exact: sqrt_lt_R0.
- rewrite tr_diag_mx mulmx_diag; congr diag_mx; apply/matrixP => i j; rewrite !mxE (ord1 i).
  by rewrite -[LHS]/(Rmult _ _) sqrt_sqrt //; exact: Rlt_le.
Qed.
Lemma chol_diag_sym d (v : 'cV[R]_d) : (forall i, Rlt 0 (v i ord0)) ->
  (chol (diag_mx v^T))^T = chol (diag_mx v^T).
Proof. by move=> Hv; rewrite chol_diag // tr_diag_mx. Qed.

Section Init.
Variables d e : nat.
Variable M : nlg d e.
Notation H := (likelihood_matrix M).
Notation V := (likelihood_covariance M).
Notation C0 := (initial_covariance M).
Hypothesis H0 : posdef C0.
Hypothesis HD : (chol C0)^T = chol C0.
Hypothesis HV : posdef V.
Let V' := (chol V)^T *m chol V.
Let S' := H *m C0 *m H^T + V'.
Let C' := C0 - C0 *m H^T *m invmx S' *m H *m C0.

Lemma V'_posdef : posdef V'. Proof. by apply: posdef_gram_tr; exact: chol_unit. Qed.
Lemma C'_posdef : posdef C'. Proof. by apply: cond_posdef => //; exact: V'_posdef. Qed.
Lemma C'_info : invmx C' = invmx C0 + H^T *m invmx V' *m H.
Proof. by apply: invmx_uniq; have [] := cond_info H H0 V'_posdef. Qed.
Lemma init_cond_precE : init_cond_prec M = invmx C'.
Proof.
have U0 := chol_unit H0; have UV := chol_unit HV; have UV' : (chol V)^T \in unitmx by rewrite unitmx_tr.
rewrite C'_info /init_cond_prec /psqrt; congr (_ + _).
  have := csqrt_gram H0; rewrite /csqrt HD => E; rewrite -{3}E invmx_mul //.
by rewrite gram_HS trmxK /V' invmx_mul // trmx_inv.
Qed.
Lemma opt_initial_potentialE x y : opt_initial_potential M (startup M) x y
  = nld x (initial_conditioned_mean M (startup M) y) C'.
Proof.
rewrite /opt_initial_potential [initial_conditioned_precision_sqrt _]/= [initial_conditioned_precision_det _]/=.
rewrite init_cond_precE; have HI := posdef_inv C'_posdef.
by rewrite jcholesky_posdef // potential_chol // invmxK.
Qed.
Lemma icov_sqrt : let A := invmx (jcholesky (init_cond_prec M)) in A \in unitmx /\ A^T *m A = C'.
Proof.
have HI := posdef_inv C'_posdef; rewrite /= init_cond_precE jcholesky_posdef //.
have U := chol_unit HI; have U' : (chol (invmx C'))^T \in unitmx by rewrite unitmx_tr.
rewrite unitmx_inv; split=> //; rewrite trmx_inv -invmx_mul //.
by have := csqrt_gram HI; rewrite /csqrt => ->; rewrite invmxK.
Qed.
Lemma opt_initial_drawn y : drawn_from (opt_initial_sample M (startup M) y) (initial_conditioned_mean M (startup M) y) C'.
Proof.
have [U E] := icov_sqrt; apply: (@drawn_affine _ (invmx (jcholesky (init_cond_prec M)))^T).
- by rewrite unitmx_tr.
- by rewrite trmxK.
- by move=> z; rewrite /opt_initial_sample trmx_mul trmxK addrC.
Qed.
End Init.

Lemma initial_meanE d e (M : nlg d e) y : posdef (initial_covariance M) -> posdef (likelihood_covariance M) ->
  let P := initial_covariance M in let H := likelihood_matrix M in let m := initial_mean M in
  initial_conditioned_mean M (startup M) y
  = m + P *m H^T *m invmx (H *m P *m H^T + likelihood_covariance M) *m (y - H *m m).
Proof.
by move=> H0 HV /=; rewrite /initial_conditioned_mean [initial_kalman_gain _]/= kalman_gainE !csqrt_gram.
Qed.

(** ** Ensembles *)
Lemma row_each n m (v : 'rV[R]_m) i : row i (each n v) = v.
Proof. by apply/rowP => j; rewrite mxE eachE. Qed.
Lemma row_propagated d e n (M : nlg d e) (X : 'M[R]_(n, d)) t0 t1 i :
  row i (propagated M X t0 t1) = (transition_function M (row i X)^T t0 t1)^T.
Proof. by apply/rowP => j; rewrite !mxE. Qed.

Lemma opt_vectorised_value d e n (M : nlg d e) F nx (X : 'M[R]_(n, d)) t0 y t1 keys i :
  row i (opt_propose_vectorised M F nx X t0 y t1 keys).1
  = (opt_proposal_sample M F (row i X)^T t0 y t1 (row i (nx (keys 0%N)))^T)^T.
Proof.
rewrite /opt_propose_vectorised /= !linearD /= !row_mul linearB /= row_each row_mul row_propagated.
by rewrite !trmxK.
Qed.
Lemma opt_vectorised_weight d e n (M : nlg d e) F nx (X : 'M[R]_(n, d)) t0 y t1 keys (i : 'I_n) x1 :
  nth NaN (opt_propose_vectorised M F nx X t0 y t1 keys).2 i
  = Fin (opt_intermediate_log_weight M F (row i X)^T t0 x1 y t1).
Proof.
rewrite /opt_propose_vectorised /= (nth_map i) ?size_enum_ord // nth_ord_enum.
by rewrite row_mul row_propagated.
Qed.
Lemma opt_vectorised_size d e n (M : nlg d e) F nx (X : 'M[R]_(n, d)) t0 y t1 keys :
  size (opt_propose_vectorised M F nx X t0 y t1 keys).2 = n.
Proof. by rewrite size_map size_enum_ord. Qed.
Lemma opt_initial_row d e n (M : nlg d e) F (nx : key -> 'M[R]_(n, d)) y keys i :
  row i (opt_initial_vectorised M F nx y keys).1 = (opt_initial_sample M F y (row i (nx (keys 0%N)))^T)^T.
Proof. by rewrite [(_, _).1]/= !linearD /= row_each row_mul !trmxK. Qed.

(** ** The ensemble Kalman filter *)
Section Enkf.
Variables d e n : nat.
Hypothesis Hn : (1 < n)%N.
Variable M : nlg d e.
Notation H := (likelihood_matrix M).
Notation V := (likelihood_covariance M).
Hypothesis HV : posdef V.

Lemma spreadE (mx : 'M[R]_(n, d)) : spread_matrix mx = (sdev mx)^T.
Proof. by rewrite /spread_matrix /sdev trZ. Qed.
Lemma spread_gram (mx : 'M[R]_(n, d)) : spread_matrix mx *m (spread_matrix mx)^T = scov mx mx.
Proof. by rewrite spreadE trmxK. Qed.

Section Gain.
Variable mx : 'M[R]_(n, d).
Let C := scov mx mx.
Let S := H *m C *m H^T + V.
Lemma enkf_S : posdef S.
Proof. by rewrite /S addrC; apply: posdef_add => //; apply: psd_congr; exact: psd_scov. Qed.
Lemma enkf_gainE : enkf_gain M mx = C *m H^T *m invmx S.
Proof. by rewrite /enkf_gain kalman_gainE spread_gram csqrt_gram. Qed.
Lemma enkf_gainS : enkf_gain M mx *m S = C *m H^T.
Proof. by rewrite enkf_gainE mulmxKV //; apply: posdef_unit; exact: enkf_S. Qed.

Variables (ny : key -> 'M[R]_(n, e)) (k : key) (y : 'cV[R]_e).
Let E := ny k *m (chol V)^T.
Let X' := enkf_analysis M ny mx y k.
Let K := enkf_gain M mx.

Lemma enkf_mean : (sample_mean X')^T
  = (sample_mean mx)^T + K *m (y - H *m (sample_mean mx)^T - chol V *m (sample_mean (ny k))^T).
Proof.
rewrite /X' /enkf_analysis sample_meanD sample_meanM sample_meanD sample_meanN sample_mean_each // sample_meanD.
rewrite !sample_meanM trD trmx_mul trmxK trB trD !trmx_mul !trmxK opprD addrA //.
Qed.

Lemma enkf_span : moves_in_span mx X'.
Proof.
move=> i; set G := each n y^T - (mx *m H^T + E).
set W := G *m (H^T *m invmx S)^T *m (sdev mx)^T.
exists (fun j => W i j * (sqrt (INR n - 1))^-1) => j.
have -> : X' = mx + W *m sdev mx.
  have [SC _] := psd_scov mx.
  have EK : (enkf_gain M mx)^T = (H^T *m invmx S)^T *m ((sdev mx)^T *m sdev mx).
    by rewrite enkf_gainE -mulmxA trmx_mul SC.
  by rewrite /X' /enkf_analysis -/E -/G EK /W !mulmxA.
rewrite mxE addrC addrA addNr add0r mxE; apply: eq_bigr => p _.
by rewrite sdevE mulrA.
Qed.

Hypothesis HZ : standardised mx (ny k).
Lemma enkf_cov : scov X' X' = C - K *m H *m C.
Proof.
have [_ [XZ ZZ]] := HZ; move: XZ ZZ; rewrite -!scovE // /scov => XZ ZZ.
have DE : sdev E = sdev (ny k) *m (chol V)^T by rewrite /E sdevM.
have XE : (sdev mx)^T *m sdev E = 0 by rewrite DE mulmxA XZ mul0mx.
have EX : (sdev E)^T *m sdev mx = 0 by rewrite -[LHS]trmxK trmx_mul trmxK XE trmx0.
have EE : (sdev E)^T *m sdev E = V.
  rewrite DE trmx_mul trmxK -mulmxA [_^T *m (_ *m _)]mulmxA ZZ mul1mx.
  by have [_ [_ ->]] := chol_correct HV.
have SX : sdev X' = sdev mx - (sdev mx *m H^T + sdev E) *m K^T.
  rewrite /X' /enkf_analysis -/E sdevD; congr (_ + _).
  by rewrite sdevM sdevD sdev_each // add0r sdevN sdevD sdevM mulNmx.
have [SC _] := psd_scov mx.
set D := sdev mx in XE EX SX *; set N := sdev E in XE EX EE SX.
have CE : D^T *m D = C by [].
have T1 : D^T *m ((D *m H^T + N) *m K^T) = C *m H^T *m K^T.
  by rewrite mulmxA mulmxDr XE addr0 mulmxA CE.
have T2 : ((D *m H^T + N) *m K^T)^T *m D = K *m H *m C.
  by rewrite trmx_mul trmxK trD trmx_mul trmxK -[K *m _ *m D]mulmxA mulmxDl EX addr0 -[H *m D^T *m D]mulmxA CE mulmxA.
have T3 : ((D *m H^T + N) *m K^T)^T *m ((D *m H^T + N) *m K^T) = C *m H^T *m K^T.
  rewrite trmx_mul trmxK trD trmx_mul trmxK -[K *m _ *m _]mulmxA [(_ + _) *m (_ *m K^T)]mulmxA.
  have -> : (H *m D^T + N^T) *m (D *m H^T + N) = S.
    rewrite mulmxDl !mulmxDr -[H *m D^T *m N]mulmxA XE mulmx0 addr0 [N^T *m (D *m _)]mulmxA EX mul0mx add0r EE.
    by rewrite -[H *m D^T *m _]mulmxA [D^T *m (_ *m _)]mulmxA CE [H *m (C *m _)]mulmxA.
  by rewrite mulmxA enkf_gainS.
rewrite /scov SX trB mulmxBl !mulmxBr T1 T2 T3 CE opprB addrA subrK.
by [].
Qed.
End Gain.

(** forecast of a linear model *)
Lemma propagated_linear (G : 'M[R]_d) (X : 'M[R]_(n, d)) t0 t1 :
  (forall x, transition_function M x t0 t1 = G *m x) -> propagated M X t0 t1 = X *m G^T.
Proof.
move=> HG; apply/row_matrixP => i; rewrite row_propagated HG row_mul.
by rewrite trmx_mul trmxK.
Qed.
Hypothesis HQ : posdef (transition_covariance M).
Lemma forecast_moments (G : 'M[R]_d) (nx : key -> 'M[R]_(n, d)) (X : 'M[R]_(n, d)) t0 t1 k :
  (forall x, transition_function M x t0 t1 = G *m x) -> standardised X (nx k) ->
  let mx := enkf_forecast M nx X t0 t1 k in
  (sample_mean mx)^T = G *m (sample_mean X)^T
  /\ scov mx mx = G *m scov X X *m G^T + transition_covariance M.
Proof.
move=> HG [MZ [XZ ZZ]] mx; rewrite /mx /enkf_forecast (propagated_linear _ HG).
split.
  by rewrite sample_meanD !sample_meanM MZ mul0mx addr0 trmx_mul trmxK.
move: XZ ZZ; rewrite -!scovE // /scov => XZ ZZ.
have ZX : (sdev (nx k))^T *m sdev X = 0 by rewrite -[LHS]trmxK trmx_mul trmxK XZ trmx0.
rewrite sdevD !sdevM trD !trmx_mul !trmxK mulmxDl !mulmxDr.
rewrite -![_ *m _^T *m (_ *m _)]mulmxA ![_^T *m (_ *m _)]mulmxA XZ ZX ZZ !mul0mx !mulmx0 addr0 add0r mul1mx.
by rewrite csqrt_gram // !mulmxA.
Qed.
End Enkf.

(** one step of filtering *)
Lemma filtering_step d e (S : lgm d e) i y mu P :
  posdef (tQ S i.+1) -> posdef (oR S i.+1) -> is_filtering S i y mu P ->
  let F := tF S i.+1 in let H := oH S i.+1 in
  let mu1 := F *m mu in let P1 := F *m P *m F^T + tQ S i.+1 in
  let K := P1 *m H^T *m invmx (H *m P1 *m H^T + oR S i.+1) in
  is_filtering S i.+1 y (mu1 + K *m (y i.+1 - H *m mu1)) (P1 - K *m H *m P1).
Proof.
move=> HQ HR [HP [c [b [Hb E]]]] F H mu1 P1 K.
have HP1 : posdef P1 by exact: cond_S.
split; first exact: cond_posdef.
pose G := P *m F^T *m invmx P1.
pose k : kern d d := Kern G (mu - G *m mu1) (P - G *m F *m P).
have Hk : kproper k by exact: cond_posdef.
exists (c + nld (y i.+1) (H *m mu1) (H *m P1 *m H^T + oR S i.+1)), (fun j => if j == i then k else b j).
split; first by move=> j; case: ifP.
move=> x; rewrite jointS E big_nat_recr //= eqxx.
have -> : \sum_(0 <= j < i) knld (if j == i then k else b j) (x j.+1) (x j)
          = \sum_(0 <= j < i) knld (b j) (x j.+1) (x j).
  by apply: eq_big_nat => j /andP[_ Hj]; rewrite (ltn_eqF Hj).
set a := \sum_(0 <= j < i) _.
have E1 := cond_bayes F HP HQ (x i) mu (x i.+1) 0; rewrite !addr0 in E1.
have E2 := cond_bayes H HP1 HR (x i.+1) mu1 (y i.+1) 0; rewrite !addr0 in E2.
have E3 : knld k (x i.+1) (x i) = nld (x i) (mu + G *m (x i.+1 - F *m mu)) (P - G *m F *m P).
  by rewrite /knld /= mulmxBr [in RHS]addrCA.
rewrite E3; move: E1 E2; clearbody a; rewrite -/F -/H -/mu1 -/P1 -/G -/K; toR.
move: (nld (x i) mu P) (nld (x i.+1) (F *m x i) _) (nld (x i.+1) mu1 P1)
  (nld (x i) (_ + _) _) (nld (y i.+1) (H *m x i.+1) _) (nld (y i.+1) (H *m mu1) _)
  (nld (x i.+1) (_ + _) _) => n1 n2 n3 n4 n5 n6 n7.
have R_ (c' a' n1' n2' n3' n4' n5' n6' n7' : R) : Rplus n1' n2' = Rplus n3' n4' -> Rplus n3' n5' = Rplus n6' n7' ->
  Rplus (Rplus (Rplus (Rplus c' n1') a') n2') n5' = Rplus (Rplus (Rplus c' n6') n7') (Rplus a' n4').
  by clear; move=> ? ?; lra.
exact: R_.
Qed.

(** ** Runs *)
Section PRun.
Variables d e n : nat.
Variable initial : 'cV[R]_e -> (nat -> key) -> 'M[R]_(n, d) * seq xr.
Variable propose : 'M[R]_(n, d) -> R -> 'cV[R]_e -> R -> (nat -> key) -> 'M[R]_(n, d) * seq xr.
Variable categorical : key -> seq xr -> 'I_n -> 'I_n.
Variable thr : R.
Variable s : prow d n.
Notation body := (pf_body propose categorical thr).
Lemma pf_scan_size k m i s0 ys : size (pf_scan propose categorical thr k m i s0 ys) = size ys.
Proof. by elim: ys i s0 => [|[y t] ys IH] i s0 //=; rewrite IH. Qed.
Lemma pf_scan_nth k m i s0 ys j : (j < size ys)%N ->
  nth s (pf_scan propose categorical thr k m i s0 ys) j
  = body (nth s (s0 :: pf_scan propose categorical thr k m i s0 ys) j)
      (nth (0, 0) ys j).1 (nth (0, 0) ys j).2 (KSplit k m (i + j)).
Proof.
elim: ys i s0 j => [|[y t] ys IH] i s0 [|j] //= Hj; first by rewrite addn0.
by rewrite IH // addSnnS.
Qed.
Lemma pf_run_size k y0 t0 ys : size (pf_run initial propose categorical thr k y0 t0 ys) = (size ys).+1.
Proof. by rewrite /= pf_scan_size. Qed.
Lemma pf_run_nth k y0 t0 ys j : (j < size ys)%N ->
  let r := pf_run initial propose categorical thr k y0 t0 ys in
  nth s r j.+1 = body (nth s r j) (nth (0, 0) ys j).1 (nth (0, 0) ys j).2 (KSplit (KSplit k 2 0) (size ys) j).
Proof. by move=> Hj /=; rewrite pf_scan_nth. Qed.
End PRun.

Lemma lw_nseq n : (0 < n)%N -> ess_log_weight (nseq n (Fin 0)) = Fin (INR n).
Proof.
move=> Hn; apply: (@WeightsProps.C23_ess_k_equal _ 0).
- by move=> x Hx; left; elim: n Hn Hx => // n IH _ /= [<- //|]; case: n IH => // n; apply.
- by elim: n {Hn} => //= n ->.
- exact/leP.
Qed.
Lemma zip_nseq n : [seq xadd ab.1 ab.2 | ab <- zip (nseq n (Fin 0)) (nseq n (Fin 0))] = nseq n (Fin 0).
Proof. by elim: n => //= n ->; rewrite Rplus_0_l. Qed.
