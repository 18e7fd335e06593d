(** Theorems on filters for nonlinear Gaussian models: C89 (optimal particle
    filter), C90 (initial particles), C91 (ensemble Kalman filter). *)
From Coq Require Import Reals Lra.
From mathcomp Require Import ssreflect ssrfun ssrbool eqtype ssrnat seq choice fintype bigop ssralg matrix.
From Verif Require Import XR Keys RStruct BfgsModel BfgsSpec BfgsProofs LinAlg WeightsModel GaussModel GaussSpec GaussProofs GaussProps
  KalmanSpec KalmanProofs TekiModel TekiSpec TekiProofs TekiProps NlgModel NlgSpec NlgProofs.
Set Implicit Arguments.
Unset Strict Implicit.
Import GRing.Theory.
Local Open Scope ring_scope.

(** * C89: the optimal particle filter *)
(** The proposal samples the law of the new state given the old state and the
    new observation, with a covariance that is the same for every particle, and
    the log weight is the log density of the observation given the old state:
    it does not depend on the state that was drawn. *)
Theorem C89_optimal d e (M : nlg d e) :
  posdef (transition_covariance M) -> posdef (likelihood_covariance M) ->
  exists C, forall x0 t0 y t1 x1, exists mu,
    conditional (transition_function M x0 t0 t1) (transition_covariance M)
      (likelihood_matrix M) (likelihood_covariance M) y mu C
      (exp (opt_intermediate_log_weight M (startup M) x0 t0 x1 y t1))
    /\ drawn_from (opt_proposal_sample M (startup M) x0 t0 y t1) mu C.
Proof.
move=> HQ HV; eexists=> x0 t0 y t1 x1; exists (conditioned_mean M (startup M) x0 t0 y t1).
by split; [exact: opt_conditional | exact: opt_drawn].
Qed.
Print Assumptions C89_optimal.

(** The method for all particles does for each particle what the methods for
    one particle do. *)
Theorem C89_vectorised d e n (M : nlg d e) F nx (X : 'M[R]_(n, d)) t0 y t1 keys :
  let r := opt_propose_vectorised M F nx X t0 y t1 keys in
  size r.2 = n /\ forall (i : 'I_n) x1,
    row i r.1 = (opt_proposal_sample M F (row i X)^T t0 y t1 (row i (nx (keys 0%N)))^T)^T
    /\ nth NaN r.2 i = Fin (opt_intermediate_log_weight M F (row i X)^T t0 x1 y t1).
Proof.
split=> [|i x1]; first exact: opt_vectorised_size.
by split; [exact: opt_vectorised_value | exact: opt_vectorised_weight].
Qed.
Print Assumptions C89_vectorised.

(** Each step of a run: if the effective sample size is below the threshold
    the particles are resampled and the weights forgotten.  Then each particle
    is moved by a draw from the conditional law, with draws of a key of its
    step, and its weight is multiplied by the density of the observation. *)
Theorem C89_run d e n (M : nlg d e) categorical thr k y0 t0 ys :
  posdef (transition_covariance M) -> posdef (likelihood_covariance M) ->
  exists C (key_of : nat -> key), injective key_of /\
  forall nx s0 (j : nat), (j < size ys)%N ->
  let r := pf_run (opt_initial_vectorised M (startup M) nx) (opt_propose_vectorised M (startup M) nx)
             (categorical : key -> seq xr -> 'I_n -> 'I_n) thr k y0 t0 ys in
  let p := nth s0 r j in let q := nth s0 r j.+1 in
  let y := (nth (0, 0) ys j).1 in let t := (nth (0, 0) ys j).2 in
  let again := xltb (pess p) (Fin (Rmult thr (INR n))) in
  size r = (size ys).+1 /\ pt q = t /\ pess q = ess_log_weight (plog_weight q)
  /\ (size (plog_weight p) = n -> size (plog_weight q) = n)
  /\ exists k' (anc : 'I_n -> 'I_n),
     (if again then anc = categorical k' (plog_weight p) else anc = id)
     /\ forall i, exists mu c (f : 'cV[R]_d -> 'cV[R]_d),
        conditional (transition_function M (row (anc i) (pvalue p))^T (pt p) t) (transition_covariance M)
          (likelihood_matrix M) (likelihood_covariance M) y mu C c
        /\ f = opt_proposal_sample M (startup M) (row (anc i) (pvalue p))^T (pt p) y t
        /\ drawn_from f mu C
        /\ (row i (pvalue q))^T = f (row i (nx (key_of j)))^T
        /\ (size (plog_weight p) = n ->
            nth NaN (plog_weight q) i = xadd (if again then Fin 0 else nth NaN (plog_weight p) i) (Fin (ln c))).
Proof.
move=> HQ HV; have [C HC] := C89_optimal HQ HV.
exists C, (fun j => KSplit (KSplit (KSplit k 2 0) (size ys) j) n 0).
split; first by move=> i j [].
move=> nx s0 j Hj r p q y t again.
have Eq : q = pf_body (opt_propose_vectorised M (startup M) nx) categorical thr p y t
              (KSplit (KSplit k 2 0) (size ys) j).
  by exact: pf_run_nth.
split; first exact: pf_run_size.
set k' := KSplit _ _ _ in Eq.
set anc := if again then categorical k' (plog_weight p) else id.
set X := if again then \matrix_(i, j) pvalue p (categorical k' (plog_weight p) i) j else pvalue p.
have EX i : row i X = row (anc i) (pvalue p).
  by rewrite /X /anc; case: (again) => //; apply/rowP => l; rewrite !mxE.
set lw := if again then nseq n (Fin 0) else plog_weight p.
set o := opt_propose_vectorised M (startup M) nx X (pt p) y t (fun i => KSplit k' n i).
have [Qv [Ql [Qt Qe]]] : pvalue q = o.1 /\ plog_weight q = [seq xadd ab.1 ab.2 | ab <- zip lw o.2]
   /\ pt q = t /\ pess q = ess_log_weight (plog_weight q).
  by rewrite Eq /pf_body -/again -/X -/lw -/o; case: o.
have So : size o.2 = n by exact: opt_vectorised_size.
have Sl : size (plog_weight p) = n -> size lw = n.
  by rewrite /lw; case: (again) => //; rewrite size_nseq.
do 2 split=> //; split.
  by move=> /Sl Hl; rewrite Ql size_map size_zip Hl So minnn.
exists k', anc; split; first by rewrite /anc; case: (again).
move=> i; have [mu [Hc Hd]] := HC (row (anc i) (pvalue p))^T (pt p) y t 0.
exists mu, (exp (opt_intermediate_log_weight M (startup M) (row (anc i) (pvalue p))^T (pt p) 0 y t)).
exists (opt_proposal_sample M (startup M) (row (anc i) (pvalue p))^T (pt p) y t).
split=> //; split=> //; split=> //; split.
  by rewrite Qv /o opt_vectorised_value trmxK EX.
move=> /Sl Hl; rewrite Ql (nth_map (NaN, NaN)); last by rewrite size_zip Hl So minnn.
rewrite nth_zip ?Hl ?So //; change (xadd (nth NaN lw i) (nth NaN o.2 i) = xadd (if again then Fin 0 else nth NaN (plog_weight p) i) (Fin (ln (exp (opt_intermediate_log_weight M (startup M) (row (anc i) (pvalue p))^T (pt p) 0 y t))))).
rewrite (opt_vectorised_weight _ _ _ _ _ _ _ _ i 0) EX ln_exp /lw.
by case: (again) => //; rewrite nth_nseq ltn_ord.
Qed.
Print Assumptions C89_run.

(** The proposal potential: it is the negative log density of the Gaussian with
    the factors of the covariance in the other order, so it is the one of the
    proposal when the conditional covariance is diagonal (in particular in one
    dimension).  What is missing is other covariances: see the refutation. *)
Theorem C89_proposal_potential_partial d e (M : nlg d e) x0 t0 x1 y t1 mu C c :
  posdef (transition_covariance M) -> posdef (likelihood_covariance M) ->
  conditional (transition_function M x0 t0 t1) (transition_covariance M)
      (likelihood_matrix M) (likelihood_covariance M) y mu C c ->
  exists L, is_cholesky L C
  /\ opt_proposal_potential M (startup M) x0 t0 x1 y t1 = (- ln (gd x1 mu (L^T *m L)))%R
  /\ ((forall i j, i != j -> C i j = 0) ->
      opt_proposal_potential M (startup M) x0 t0 x1 y t1 = (- ln (gd x1 mu C))%R).
Proof.
move=> HQ HV Hc; have Ho := opt_conditional HQ HV x0 t0 0 y t1.
have [Em [EC _]] := conditional_unique Hc Ho; have [HC _] := Hc; rewrite -EC in Ho.
have P := opt_potentialE HQ HV x0 t0 x1 y t1; rewrite -Em -EC in P.
exists (chol C); split; first exact: chol_correct.
split=> // HD; rewrite P nld_gd; do 3 f_equal.
have [v Ev] : exists v : 'cV[R]_d, C = diag_mx v^T.
  exists (\col_i C i i); apply/matrixP => i j; rewrite !mxE; case: eqP => [->|/eqP /HD ->]; by rewrite ?mulr1n.
have Hv i : Rlt 0 (v i ord0).
  have [_ Pv] := HC; have := Pv (delta_mx i ord0); rewrite Ev bilE -colE dotE /=.
  have -> : ((delta_mx i ord0 : 'cV[R]_d)^T *m col i (diag_mx v^T)) ord0 ord0 = v i ord0.
    by rewrite trmx_delta -rowE !mxE eqxx mulr1n.
  apply=> E; have := congr1 (fun m : 'cV[R]_d => m i ord0) E; rewrite !mxE !eqxx /= => /eqP.
  by rewrite oner_eq0.
have := csqrt_gram HC; rewrite /csqrt {1 2}Ev => EG; rewrite {1 2}Ev -{2}(chol_diag_sym Hv) -EG !chol_diag_sym //.
Qed.
Print Assumptions C89_proposal_potential_partial.

(** Refuted in two dimensions: with nothing observed (matrix 0) and covariance
    [[1,1],[1,2]] the potential is smaller than the negative log density. *)
Theorem C89_proposal_potential_refuted : exists (M : nlg 2 1) x0 x1 y mu C c,
  posdef (transition_covariance M) /\ posdef (likelihood_covariance M)
  /\ conditional (transition_function M x0 0 1) (transition_covariance M)
      (likelihood_matrix M) (likelihood_covariance M) y mu C c
  /\ drawn_from (opt_proposal_sample M (startup M) x0 0 y 1) mu C
  /\ Rlt (opt_proposal_potential M (startup M) x0 0 x1 y 1) (- ln (gd x1 mu C)).
Proof.
pose M := @Nlg 2 1 0 1%:M (fun x _ _ => x) (mx2 1 1 1 2) 0 1%:M.
have HQ : posdef (transition_covariance M) by exact: posdef_mx2_1112.
have HV : posdef (likelihood_covariance M) by apply: posdef_scalar; exact: Rlt_0_1.
have HL : is_cholesky (mx2 1 0 1 1) (mx2 1 1 1 2).
  split; [|split].
  - by apply: mx2P; apply: mx2P => //= _; rewrite !mxE.
  - by apply: mx2P; rewrite !mxE; exact: Rlt_0_1.
  - by rewrite tr_mx2 mulmx2; apply: mx2_congr; toR; ring.
have Ho := opt_conditional HQ HV 0 0 0 0 1; have Hd := opt_drawn HQ HV 0 0 0 1.
have P := opt_potentialE HQ HV 0 0 (cv2 1 0) 0 1.
have EC : transition_covariance M - transition_covariance M *m (likelihood_matrix M)^T *m
    invmx (likelihood_matrix M *m transition_covariance M *m (likelihood_matrix M)^T + likelihood_covariance M)
    *m likelihood_matrix M *m transition_covariance M = mx2 1 1 1 2.
  by rewrite /= mulmx0 mul0mx subr0.
have Em : conditioned_mean M (startup M) 0 0 0 1 = 0.
  by rewrite conditioned_meanE //= !mulmx0 subr0 mulmx0 addr0.
rewrite EC Em in Ho Hd P; rewrite (chol_unique HL) in P.
eexists M, 0, (cv2 1 0), 0, 0, _, _; do 2 split=> //; split; first exact: Ho.
split=> //; rewrite P; change (Rlt (nld (cv2 1 0) 0 ((mx2 1 0 1 1)^T *m mx2 1 0 1 1)) (nld (cv2 1 0) 0 (mx2 1 1 1 2))).
case: HL => _ [_ E]; have := posdef_unit posdef_mx2_1112; rewrite -{1}E unitmx_mul => /andP [U _].
apply: quad_lt; [exact: posdef_gram_tr|exact: posdef_mx2_1112| |].
  by rewrite -[in RHS]E !det_mulmx mulrC.
have -> : invmx (mx2 1 1 1 2) = mx2 2 (-1) (-1) 1.
  by apply: invmx_uniq; rewrite mulmx2 -mx2_1; apply: mx2_congr; toR; ring.
have -> : invmx ((mx2 1 0 1 1)^T *m mx2 1 0 1 1) = mx2 1 (-1) (-1) 2.
  by apply: invmx_uniq; rewrite tr_mx2 !mulmx2 -mx2_1; apply: mx2_congr; toR; ring.
by rewrite subr0 !bilE !mulmx2c !dot_cv2; toR; lra.
Qed.
Print Assumptions C89_proposal_potential_refuted.

(** a model with a quadratic transition, for the hypotheses of C89 *)
Definition exM : nlg 2 2 :=
  Nlg 0 (mx2 1 1 1 2) (fun x t0 t1 => cv2 (Rmult (x ord0 ord0) (x ord0 ord0)) (Rminus t1 t0))
    (mx2 1 1 1 2) (mx2 1 0 1 1) (mx2 4 2 2 5).
Example C89_example : posdef (transition_covariance exM) /\ posdef (likelihood_covariance exM)
  /\ exists mu C c, conditional (transition_function exM (cv2 3 1) 0 2) (mx2 1 1 1 2) (mx2 1 0 1 1) (mx2 4 2 2 5) (cv2 1 1) mu C c
     /\ forall t0 x1, opt_intermediate_log_weight exM (startup exM) (cv2 3 1) t0 x1 (cv2 1 1) (Rplus t0 2) = ln c.
Proof.
have HQ := posdef_mx2_1112; have HV := proj1 C38_example; do 2 split=> //.
have [C HC] := @C89_optimal _ _ exM HQ HV.
have [mu [Hc _]] := HC (cv2 3 1) 0 (cv2 1 1) 2 0.
exists mu, C; eexists; split; first exact: Hc.
move=> t0 x1; rewrite ln_exp /opt_intermediate_log_weight.
have -> : transition_function exM (cv2 3 1) t0 (Rplus t0 2) = transition_function exM (cv2 3 1) 0 2.
  by rewrite /=; f_equal; ring.
by [].
Qed.

(** * C90: initial particles *)
Lemma diag_posdef m (v : 'cV[R]_m) : (forall i, Rlt 0 (v i ord0)) -> posdef (diag_mx v^T).
Proof.
move=> Hv; have E := chol_diag Hv.
have -> : diag_mx v^T = diag_mx (\row_i sqrt (v i ord0)) *m (diag_mx (\row_i sqrt (v i ord0)))^T.
  rewrite tr_diag_mx mulmx_diag; congr diag_mx; apply/matrixP => i j; rewrite !mxE (ord1 i).
  by rewrite -[RHS]/(Rmult _ _) sqrt_sqrt //; exact: Rlt_le.
apply: posdef_gram; rewrite unitmxE det_diag unitfE; apply/prodf_neq0 => i _; rewrite mxE.
by apply/eqP; apply: Rgt_not_eq; exact: sqrt_lt_R0.
Qed.

(** With diagonal covariances of the initial state and of the observation: the
    particles are drawn from the law of the initial state given the first
    observation, the potential is that of this law, the particles of the
    ensemble are made each from its own row of the draws, and both filters make
    the same ensemble, with weights one.  What is missing is other covariances:
    see the refutations. *)
Theorem C90_initial_partial d e (M : nlg d e) (v : 'cV[R]_d) (w : 'cV[R]_e) y :
  (forall i, Rlt 0 (v i ord0)) -> initial_covariance M = diag_mx v^T ->
  (forall i, Rlt 0 (w i ord0)) -> likelihood_covariance M = diag_mx w^T ->
  exists mu C c,
    conditional (initial_mean M) (initial_covariance M) (likelihood_matrix M) (likelihood_covariance M) y mu C c
    /\ drawn_from (opt_initial_sample M (startup M) y) mu C
    /\ (forall x, opt_initial_potential M (startup M) x y = Ropp (ln (gd x mu C)))
    /\ forall n (nx : key -> 'M[R]_(n, d)) keys,
         enkf_initial M nx y keys = opt_initial_vectorised M (startup M) nx y keys
         /\ (opt_initial_vectorised M (startup M) nx y keys).2 = nseq n (Fin 0)
         /\ forall i, row i (opt_initial_vectorised M (startup M) nx y keys).1
                      = (opt_initial_sample M (startup M) y (row i (nx (keys 0%N)))^T)^T.
Proof.
move=> Hv Ev Hw Ew.
have H0 : posdef (initial_covariance M) by rewrite Ev; exact: diag_posdef.
have HV : posdef (likelihood_covariance M) by rewrite Ew; exact: diag_posdef.
have HD : (chol (initial_covariance M))^T = chol (initial_covariance M) by rewrite Ev chol_diag_sym.
have DV : (chol (likelihood_covariance M))^T = chol (likelihood_covariance M) by rewrite Ew chol_diag_sym.
have EV : (chol (likelihood_covariance M))^T *m chol (likelihood_covariance M) = likelihood_covariance M.
  by rewrite -{2}DV; have := csqrt_gram HV; rewrite /csqrt DV.
have C := conditional_ok (initial_mean M) (likelihood_matrix M) y H0 HV.
have EM := initial_meanE y H0 HV; cbv zeta in C, EM; rewrite -EM in C.
have D := opt_initial_drawn H0 HD HV y; have P := fun x => opt_initial_potentialE H0 HD HV x y.
rewrite EV in D P.
exists (initial_conditioned_mean M (startup M) y); do 2 eexists; split; first exact: C.
split; first by exact: D.
split; first by move=> x; rewrite P.
by move=> n nx keys; split=> //; split=> // i; exact: opt_initial_row.
Qed.
Print Assumptions C90_initial_partial.

(** With a diagonal initial covariance and any observation covariance [V = L
    L^T], the mean is right and the covariance is that for the observation
    covariance [L^T L]. *)
Theorem C90_factor_partial d e (M : nlg d e) (v : 'cV[R]_d) y :
  (forall i, Rlt 0 (v i ord0)) -> initial_covariance M = diag_mx v^T -> posdef (likelihood_covariance M) ->
  exists L mu C c mu' C' c', is_cholesky L (likelihood_covariance M)
    /\ conditional (initial_mean M) (initial_covariance M) (likelihood_matrix M) (likelihood_covariance M) y mu C c
    /\ conditional (initial_mean M) (initial_covariance M) (likelihood_matrix M) (L^T *m L) y mu' C' c'
    /\ drawn_from (opt_initial_sample M (startup M) y) mu C'.
Proof.
move=> Hv Ev HV; set L := chol (likelihood_covariance M).
have H0 : posdef (initial_covariance M) by rewrite Ev; exact: diag_posdef.
have HD : (chol (initial_covariance M))^T = chol (initial_covariance M) by rewrite Ev chol_diag_sym.
have HV' : posdef (L^T *m L) by exact: V'_posdef.
have A := conditional_ok (initial_mean M) (likelihood_matrix M) y H0 HV.
have A' := conditional_ok (initial_mean M) (likelihood_matrix M) y H0 HV'.
exists L; do 6 eexists; split; first exact: chol_correct.
split; first exact: A.
split; first exact: A'.
by have := opt_initial_drawn H0 HD HV y; rewrite initial_meanE.
Qed.
Print Assumptions C90_factor_partial.

(** Refuted: standard normal initial state, observed with covariance
    [[1,1],[1,2]].  The particles do not have the conditional law. *)
Theorem C90_initial_refuted : exists (M : nlg 2 2) y mu C c,
  posdef (initial_covariance M) /\ posdef (likelihood_covariance M)
  /\ conditional (initial_mean M) (initial_covariance M) (likelihood_matrix M) (likelihood_covariance M) y mu C c
  /\ ~ drawn_from (opt_initial_sample M (startup M) y) mu C.
Proof.
pose M := @Nlg 2 2 0 1%:M (fun x _ _ => x) 1%:M 1%:M (mx2 1 1 1 2).
have HL : is_cholesky (mx2 1 0 1 1) (mx2 1 1 1 2).
  split; [|split].
  - by apply: mx2P; apply: mx2P => //= _; rewrite !mxE.
  - by apply: mx2P; rewrite !mxE; exact: Rlt_0_1.
  - by rewrite tr_mx2 mulmx2; apply: mx2_congr; toR; ring.
have H0 : posdef (initial_covariance M) by apply: posdef_scalar; exact: Rlt_0_1.
have HV : posdef (likelihood_covariance M) by exact: posdef_mx2_1112.
have HD : (chol (initial_covariance M))^T = chol (initial_covariance M).
  have -> : chol (initial_covariance M) = 1%:M.
    apply: chol_unique; split; [|split]; last by rewrite trmx1 mulmx1.
    - by apply: mx2P; apply: mx2P => //= _; rewrite !mxE.
    - by move=> i; rewrite mxE eqxx; exact: Rlt_0_1.
  by rewrite trmx1.
have A := conditional_ok (initial_mean M) (likelihood_matrix M) 0 H0 HV.
exists M, 0; do 3 eexists; split; first exact: H0.
split; first exact: HV.
split; first exact: A.
have [PC _] := A; have PC' := C'_posdef H0 HV.
have E1 (B : 'M[R]_2) : 1%:M - 1%:M *m (1%:M)^T *m invmx (1%:M *m 1%:M *m (1%:M)^T + B) *m 1%:M *m 1%:M
    = 1%:M - invmx (1%:M + B) by rewrite trmx1 !mulmx1 mul1mx.
move=> D; have [_ E] := drawn_unique PC PC' D (opt_initial_drawn H0 HD HV 0).
have {}E : 1%:M - invmx (1%:M + mx2 1 1 1 2) = 1%:M - invmx (1%:M + (mx2 1 0 1 1)^T *m mx2 1 0 1 1).
  by rewrite -!E1 -(chol_unique HL).
have {}E : mx2 1 1 1 2 = (mx2 1 0 1 1)^T *m mx2 1 0 1 1.
  apply: (@addrI _ 1%:M); rewrite -[LHS]invmxK -[RHS]invmxK; congr invmx.
  by apply: oppr_inj; exact: (@addrI _ 1%:M).
move: E; rewrite tr_mx2 mulmx2 => /matrixP /(_ ord0 ord0); rewrite !mxE /=.
by toR; lra.
Qed.
Print Assumptions C90_initial_refuted.

(** Refuted: the matrix whose Cholesky factor is taken need not be positive
    definite, for initial covariance [[1,2],[2,5]] and nothing observed: no
    factor exists and the code gives NaN. *)
Theorem C90_definite_refuted : exists M : nlg 2 1,
  posdef (initial_covariance M) /\ posdef (likelihood_covariance M)
  /\ ~ exists L, is_cholesky L (symmetrised (init_cond_prec M)).
Proof.
pose M := @Nlg 2 1 0 (mx2 1 2 2 5) (fun x _ _ => x) 1%:M 0 1%:M.
have HL : is_cholesky (mx2 1 0 2 1) (mx2 1 2 2 5).
  split; [|split].
  - by apply: mx2P; apply: mx2P => //= _; rewrite !mxE.
  - by apply: mx2P; rewrite !mxE; exact: Rlt_0_1.
  - by rewrite tr_mx2 mulmx2; apply: mx2_congr; toR; ring.
have EI : mx2 1 0 2 1 *m mx2 1 0 (-2) 1 = 1%:M :> 'M[R]_2.
  by rewrite mulmx2 -mx2_1; apply: mx2_congr; toR; ring.
have II : invmx (mx2 1 0 2 1) = mx2 1 0 (-2) 1 by exact: invmx_uniq.
have U : mx2 1 0 2 1 \in unitmx := unit_of_mul EI.
exists M; split; [|split].
- by case: HL => _ [_ E]; rewrite /= -E; exact: posdef_gram.
- by apply: posdef_scalar; exact: Rlt_0_1.
have -> : symmetrised (init_cond_prec M) = mx2 1 (-2) (-2) 1.
  rewrite /init_cond_prec /= trmx0 mul0mx mul0mx addr0 /psqrt (chol_unique HL) II mulmx2 /symmetrised tr_mx2.
  by apply/matrixP => i j; rewrite !mxE; case: i => [[|[|i]] Hi] //; case: j => [[|[|j]] Hj] //=; toR; field.
move=> [L HLL].
have [L0 [LD E]] := HLL.
have := congr1 (fun A : 'M[R]_2 => A ord0 ord0) E; have := congr1 (fun A : 'M[R]_2 => A (lift ord0 ord0) ord0) E.
have := congr1 (fun A : 'M[R]_2 => A (lift ord0 ord0) (lift ord0 ord0)) E.
rewrite !mxE !big_ord_recl !big_ord0 !addr0 !mxE /= (L0 ord0 (lift ord0 ord0)) //.
move: (LD ord0) (LD (lift ord0 ord0)); move: (L ord0 ord0) (L _ ord0) (L _ _) => a b c; toR => Ha Hc.
nra.
Qed.
Print Assumptions C90_definite_refuted.

(** observing the sum of two coordinates with variances 1 and 4 *)
Example C90_example : exists (M : nlg 2 1) (v : 'cV[R]_2) (w : 'cV[R]_1),
  (forall i, Rlt 0 (v i ord0)) /\ initial_covariance M = diag_mx v^T
  /\ (forall i, Rlt 0 (w i ord0)) /\ likelihood_covariance M = diag_mx w^T
  /\ likelihood_matrix M <> 0 /\ exists L, is_cholesky L (symmetrised (init_cond_prec M)).
Proof.
pose M := @Nlg 2 1 0 (diag_mx (cv2 1 4)^T) (fun x _ _ => x) 1%:M (cv2 1 1)^T (diag_mx (const_mx (IZR 3))^T).
have Hv : forall i, Rlt 0 (cv2 1 4 i ord0) 
  by apply: mx2P; rewrite !mxE /=; [exact: Rlt_0_1 | lra].
have Hw : forall i, Rlt 0 ((const_mx (IZR 3) : 'cV[R]_1) i ord0) by move=> i; rewrite mxE; lra.
exists M, (cv2 1 4), (const_mx (IZR 3)); do 4 split=> //; split.
  by move=> /matrixP /(_ ord0 ord0); rewrite !mxE /=; toR; lra.
have H0 : posdef (initial_covariance M) by exact: diag_posdef.
have HV : posdef (likelihood_covariance M) by exact: diag_posdef.
have HD : (chol (initial_covariance M))^T = chol (initial_covariance M) by exact: chol_diag_sym.
have HI := posdef_inv (C'_posdef H0 HV); rewrite -(init_cond_precE H0 HD HV) in HI.
exists (chol (init_cond_prec M)); have [S _] := HI; rewrite symmetrised_sym //; exact: chol_correct.
Qed.

(** * C91: the ensemble Kalman filter *)
(** The gain solves the equation of the Kalman gain for the sample covariance
    of the forecast; every particle moves within the span of the deviations of
    the forecast; the mean moves by the gain times the mean innovation. *)
Theorem C91_analysis d e n (M : nlg d e) ny (X : 'M[R]_(n, d)) y k :
  (1 < n)%N -> posdef (likelihood_covariance M) ->
  let H := likelihood_matrix M in let C := sample_cov X X in
  let X' := enkf_analysis M ny X y k in
  exists K L, K *m (H *m C *m H^T + likelihood_covariance M) = C *m H^T
  /\ posdef (H *m C *m H^T + likelihood_covariance M)
  /\ is_cholesky L (likelihood_covariance M)
  /\ (forall i, (row i X')^T = (row i X)^T + K *m (y - (H *m (row i X)^T + L *m (row i (ny k))^T)))
  /\ (sample_mean X')^T = (sample_mean X)^T + K *m (y - H *m (sample_mean X)^T - L *m (sample_mean (ny k))^T)
  /\ moves_in_span X X'.
Proof.
move=> Hn HV H C X'; exists (enkf_gain M X), (chol (likelihood_covariance M)).
rewrite /C -scovE //; split; first exact: enkf_gainS.
split; first exact: enkf_S.
split; first exact: chol_correct.
split.
  move=> i; have rD m (A B : 'M[R]_(n, m)) : row i (A + B) = row i A + row i B by apply/rowP => j; rewrite !mxE.
  have rN m (A : 'M[R]_(n, m)) : row i (- A) = - row i A by apply/rowP => j; rewrite !mxE.
  rewrite /X' /enkf_analysis rD row_mul rD rN rD row_each !row_mul.
  by move: (enkf_gain M X) => K; rewrite trD trmx_mul trB trD !trmx_mul !trmxK.
by split; [exact: enkf_mean | exact: enkf_span].
Qed.
Print Assumptions C91_analysis.

(** the keys of the draws of a run of [m] steps *)
Definition run_ki (n : nat) (k : key) : key := KSplit (KSplit k 2 1) n 0.
Definition run_kx (n m : nat) (k : key) (j : nat) : key := KSplit (KSplit (KSplit (KSplit k 2 0) m j) n 0) 2 0.
Definition run_ky (n m : nat) (k : key) (j : nat) : key := KSplit (KSplit (KSplit (KSplit k 2 0) m j) n 0) 2 1.
Lemma enkf_run_at d e n (M : nlg d e) thr k y0 t0 (ys : seq ('cV[R]_e * R)) nx ny (categorical : key -> seq xr -> 'I_n -> 'I_n) s0 :
  (0 < n)%N -> Rle thr 1 ->
  let ki := run_ki n k in let kx := run_kx n (size ys) k in let ky := run_ky n (size ys) k in
  let r := pf_run (enkf_initial M nx) (enkf_propose M nx ny) categorical thr k y0 t0 ys in
  size r = (size ys).+1
  /\ pvalue (nth s0 r 0) = (opt_initial_vectorised M (startup M) nx y0 (fun _ => ki)).1
  /\ (forall j, (j <= size ys)%N ->
        plog_weight (nth s0 r j) = nseq n (Fin 0) /\ pess (nth s0 r j) = Fin (INR n)
        /\ pt (nth s0 r j) = nth 0 (t0 :: [seq yt.2 | yt <- ys]) j)
  /\ forall j, (j < size ys)%N ->
        let p := nth s0 r j in let t := (nth (0, 0) ys j).2 in
        pvalue (nth s0 r j.+1)
        = enkf_analysis M ny (enkf_forecast M nx (pvalue p) (pt p) t (kx j)) (nth (0, 0) ys j).1 (ky j).
Proof.
move=> Hn Ht ki kx ky r.
have step p y t k' : plog_weight p = nseq n (Fin 0) -> pess p = Fin (INR n) ->
    pf_body (enkf_propose M nx ny) categorical thr p y t k'
    = PRow (enkf_analysis M ny (enkf_forecast M nx (pvalue p) (pt p) t (KSplit (KSplit k' n 0) 2 0)) y
              (KSplit (KSplit k' n 0) 2 1)) (nseq n (Fin 0)) t (Fin (INR n)).
  move=> Hl He; rewrite /pf_body He Hl.
  have -> : xltb (Fin (INR n)) (Fin (Rmult thr (INR n))) = false.
    apply/negP => /=; rewrite /is_true => /Rltb_true.
    have : Rlt 0 (INR n) by apply: lt_0_INR; apply/ltP.
    by move=> A B; have := Rmult_le_compat_r _ _ _ (Rlt_le _ _ A) Ht; lra.
  by rewrite /enkf_propose zip_nseq lw_nseq.
have inv j : (j <= size ys)%N -> plog_weight (nth s0 r j) = nseq n (Fin 0) /\ pess (nth s0 r j) = Fin (INR n)
        /\ pt (nth s0 r j) = nth 0 (t0 :: [seq yt.2 | yt <- ys]) j.
  elim: j => [|j IH] Hj.
    by split=> //; split=> //; exact: lw_nseq.
  have [Hl [He _]] := IH (ltnW Hj).
  rewrite /r pf_run_nth // -/r step //; split=> //; split=> //=.
  by rewrite (nth_map (0, 0)).
split; first exact: pf_run_size.
split; first reflexivity.
split; first exact: inv.
move=> j Hj p t.
have [Hl [He _]] := inv j (ltnW Hj).
have N : nth s0 r j.+1 = _ := pf_run_nth (enkf_initial M nx) (enkf_propose M nx ny) categorical thr s0 k y0 t0 Hj.
by rewrite N (step _ _ _ _ Hl He).
Qed.

(** Each step of a run: with threshold at most 1 there never is resampling; the
    weights stay zero and the effective sample size is the number of particles;
    the ensemble is the analysis of the forecast of the previous one, where all
    draws come from different keys. *)
Theorem C91_run d e n (M : nlg d e) thr k y0 t0 (ys : seq ('cV[R]_e * R)) : (0 < n)%N -> Rle thr 1 ->
  exists (ki : key) (kx ky : nat -> key),
  injective kx /\ injective ky /\ (forall i j, kx i <> ky j) /\ (forall i, kx i <> ki) /\ (forall i, ky i <> ki)
  /\ forall nx ny (categorical : key -> seq xr -> 'I_n -> 'I_n) s0,
  let r := pf_run (enkf_initial M nx) (enkf_propose M nx ny) categorical thr k y0 t0 ys in
  size r = (size ys).+1
  /\ pvalue (nth s0 r 0) = (opt_initial_vectorised M (startup M) nx y0 (fun _ => ki)).1
  /\ (forall j, (j <= size ys)%N ->
        plog_weight (nth s0 r j) = nseq n (Fin 0) /\ pess (nth s0 r j) = Fin (INR n)
        /\ pt (nth s0 r j) = nth 0 (t0 :: [seq yt.2 | yt <- ys]) j)
  /\ forall j, (j < size ys)%N ->
        let p := nth s0 r j in let t := (nth (0, 0) ys j).2 in
        pvalue (nth s0 r j.+1)
        = enkf_analysis M ny (enkf_forecast M nx (pvalue p) (pt p) t (kx j)) (nth (0, 0) ys j).1 (ky j).
Proof.
move=> Hn Ht; exists (run_ki n k), (run_kx n (size ys) k), (run_ky n (size ys) k).
split; first by move=> i j [].
split; first by move=> i j [].
split; first by move=> i j [].
split; first by move=> i [].
split; first by move=> i [].
move=> nx ny categorical s0; exact: enkf_run_at.
Qed.
Print Assumptions C91_run.

(** When the transition is linear the filter is the Kalman filter as far as the
    sample moments of the draws are those of the standard normal law: then the
    sample mean and covariance of the ensemble are the mean and covariance of
    the law of the state given the observations so far, at every step.
    (The limit of many particles, in which the sample moments have these values,
    is [C91_limit] in [NlgLimProps].) *)
Theorem C91_kalman d e n (M : nlg d e) (G : R -> R -> 'M[R]_d) nx ny (X : nat -> 'M[R]_(n, d))
    (t : nat -> R) (y : nat -> 'cV[R]_e) (kx ky : nat -> key) m :
  (1 < n)%N -> posdef (transition_covariance M) -> posdef (likelihood_covariance M) ->
  (forall x s0 s1, transition_function M x s0 s1 = G s0 s1 *m x) ->
  let S := LGM (initial_mean M) (initial_covariance M) (fun i => G (t i.-1) (t i)) (fun=> transition_covariance M)
             (fun=> likelihood_matrix M) (fun=> likelihood_covariance M) in
  is_filtering S 0 y (sample_mean (X 0%N))^T (sample_cov (X 0%N) (X 0%N)) ->
  (forall i, (i < m)%N ->
     let mx := enkf_forecast M nx (X i) (t i) (t i.+1) (kx i) in
     standardised (X i) (nx (kx i)) /\ standardised mx (ny (ky i))
     /\ X i.+1 = enkf_analysis M ny mx (y i.+1) (ky i)) ->
  is_filtering S m y (sample_mean (X m))^T (sample_cov (X m) (X m)).
Proof.
move=> Hn HQ HV HG S H0; elim: m => [|m IH] Hm //.
have F := IH (fun i Hi => Hm i (ltn_trans Hi (ltnSn m))).
have [SX [SY E]] := Hm m (ltnSn m); set mx := enkf_forecast _ _ _ _ _ _ in SY E.
have [M1 C1] := forecast_moments Hn HQ (fun x => HG x (t m) (t m.+1)) SX; rewrite -/mx in M1 C1.
rewrite -scovE // in F; have := @filtering_step _ _ S m y _ _ HQ HV F; cbv zeta.
rewrite -[tF S m.+1]/(G (t m) (t m.+1)) -[tQ S m.+1]/(transition_covariance M) -[oR S m.+1]/(likelihood_covariance M)
  -[oH S m.+1]/(likelihood_matrix M) -C1 -M1 => P.
have EC := enkf_cov Hn HV (y m.+1) SY; have EM := enkf_mean Hn M mx ny (ky m) (y m.+1).
have [Z0 _] := SY; rewrite -E Z0 trmx0 mulmx0 subr0 (enkf_gainE HV mx) in EM.
rewrite -E (enkf_gainE HV mx) in EC.
by rewrite -(scovE Hn (X m.+1) (X m.+1)) EC EM; exact: P.
Qed.
Print Assumptions C91_kalman.

(** The first ensemble, when the initial and observation covariances are
    diagonal, has the moments of the law given the first observation. *)
Theorem C91_kalman_initial d e n (M : nlg d e) (v : 'cV[R]_d) (w : 'cV[R]_e) F Q nx (y : nat -> 'cV[R]_e) keys :
  (1 < n)%N ->
  (forall i, Rlt 0 (v i ord0)) -> initial_covariance M = diag_mx v^T ->
  (forall i, Rlt 0 (w i ord0)) -> likelihood_covariance M = diag_mx w^T ->
  sample_mean (nx (keys 0%N)) = 0 -> sample_cov (nx (keys 0%N)) (nx (keys 0%N)) = 1%:M ->
  let S := LGM (initial_mean M) (initial_covariance M) F Q (fun=> likelihood_matrix M) (fun=> likelihood_covariance M) in
  let X := (enkf_initial M nx (y 0%N) keys).1 : 'M[R]_(n, d) in
  is_filtering S 0 y (sample_mean X)^T (sample_cov X X).
Proof.
move=> Hn Hv Ev Hw Ew MZ CZ S X.
have H0 : posdef (initial_covariance M) by rewrite Ev; exact: diag_posdef.
have HV : posdef (likelihood_covariance M) by rewrite Ew; exact: diag_posdef.
have HD : (chol (initial_covariance M))^T = chol (initial_covariance M) by rewrite Ev chol_diag_sym.
have DV : (chol (likelihood_covariance M))^T = chol (likelihood_covariance M) by rewrite Ew chol_diag_sym.
have EV : (chol (likelihood_covariance M))^T *m chol (likelihood_covariance M) = likelihood_covariance M.
  by rewrite -{2}DV; have := csqrt_gram HV; rewrite /csqrt DV.
have [_ EA] := icov_sqrt H0 HD HV; rewrite EV in EA.
have EM := initial_meanE (y 0%N) H0 HV; cbv zeta in EM.
have SM : (sample_mean X)^T = initial_conditioned_mean M (startup M) (y 0%N).
  by rewrite /X sample_meanD sample_mean_each // sample_meanM MZ mul0mx addr0 trmxK.
have SC : sample_cov X X = (invmx (jcholesky (init_cond_prec M)))^T *m invmx (jcholesky (init_cond_prec M)).
  move: CZ; rewrite -!scovE // /scov => CZ.
  by rewrite /X /enkf_initial; move: (invmx (jcholesky _)) => B; rewrite [(_, _).1]/= sdevD sdev_each // add0r sdevM trmx_mul -mulmxA [_^T *m (sdev _ *m _)]mulmxA CZ mul1mx.
rewrite SM SC EA EM; split; first by exact: cond_posdef.
exists (nld (y 0%N) (likelihood_matrix M *m initial_mean M)
  (likelihood_matrix M *m initial_covariance M *m (likelihood_matrix M)^T + likelihood_covariance M)).
exists (fun _ => Kern 0 0 1%:M); split; first by move=> _; apply: posdef_scalar; exact: Rlt_0_1.
move=> x; rewrite big_geq // addr0 joint0 /=.
by have := cond_bayes (likelihood_matrix M) H0 HV (x 0%N) (initial_mean M) (y 0%N) 0; rewrite !addr0.
Qed.
Print Assumptions C91_kalman_initial.

(** one step with four particles: a state with variance 2, then doubled with
    noise of variance 1, observed with variance 4 *)
Definition exK : nlg 1 1 :=
  Nlg 0 (diag_mx (const_mx (IZR 2))^T) (fun x _ _ => (IZR 2)%:M *m x) 1%:M 1%:M (diag_mx (const_mx (IZR 4))^T).
Definition z1 := let q := Rdiv (sqrt 3) 2 in mk4 q q (- q) (- q).
Definition z2 := let q := Rdiv (sqrt 3) 2 in mk4 q (- q) q (- q).
Definition z3 := let q := Rdiv (sqrt 3) 2 in mk4 q (- q) (- q) q.
Definition exnx (k : key) : 'M[R]_(4, 1) := match k with KRoot _ => z1 | KSplit _ _ _ => z2 end.
Lemma z_moments : (sample_mean z1 = 0 /\ sample_mean z2 = 0 /\ sample_mean z3 = 0)
  /\ (sample_cov z1 z2 = 0 /\ sample_cov z1 z3 = 0 /\ sample_cov z2 z3 = 0)
  /\ (sample_cov z1 z1 = 1%:M /\ sample_cov z2 z2 = 1%:M /\ sample_cov z3 z3 = 1%:M).
Proof.
have S3 := sqrt3.
have Z0 (r : R) : r = IZR 0 -> r%:M = 0 :> 'M[R]_1 by move=> ->; exact: raddf0.
rewrite /z1 /z2 /z3 !mean4 !cov4; do ![split]; try (apply: Z0; toR; field).
all: congr (_%:M); toR; move: (sqrt 3) S3 => q S3.
all: transitivity (Rdiv (Rmult q q) 3); first by field.
all: by rewrite S3; field.
Qed.
Lemma cov_affine m p q (c : 'rV[R]_m) (A : 'M[R]_(4, p)) (B : 'M[R]_(p, m)) (Z : 'M[R]_(4, q)) :
  sample_cov (each 4 c + A *m B) Z = B^T *m sample_cov A Z.
Proof. by rewrite -!scovE // /scov sdevD sdev_each // add0r sdevM trmx_mul mulmxA. Qed.
Lemma cov_sum m q (A B : 'M[R]_(4, m)) (Z : 'M[R]_(4, q)) :
  sample_cov (A + B) Z = sample_cov A Z + sample_cov B Z.
Proof. by rewrite -!scovE // /scov sdevD trD mulmxDl. Qed.
Lemma cov_mul m p q (A : 'M[R]_(4, p)) (B : 'M[R]_(p, m)) (Z : 'M[R]_(4, q)) :
  sample_cov (A *m B) Z = B^T *m sample_cov A Z.
Proof. by rewrite -!scovE // /scov sdevM trmx_mul mulmxA. Qed.

Example C91_example : exists (X : nat -> 'M[R]_(4, 1)) (y : nat -> 'cV[R]_1) (k : key),
  posdef (transition_covariance exK) /\ posdef (likelihood_covariance exK)
  /\ X 0%N = (enkf_initial exK exnx (y 0%N) (fun=> KRoot 0)).1
  /\ is_filtering (LGM (initial_mean exK) (initial_covariance exK) (fun=> (IZR 2)%:M) (fun=> transition_covariance exK)
       (fun=> likelihood_matrix exK) (fun=> likelihood_covariance exK)) 0 y
       (sample_mean (X 0%N))^T (sample_cov (X 0%N) (X 0%N))
  /\ forall i, (i < 1)%N ->
     let mx := enkf_forecast exK exnx (X i) 0 0 k in
     standardised (X i) (exnx k) /\ standardised mx z3
     /\ X i.+1 = enkf_analysis exK (fun=> z3) mx (y i.+1) k.
Proof.
pose y (i : nat) : 'cV[R]_1 := const_mx (INR i).
pose X0 : 'M[R]_(4, 1) := (enkf_initial exK exnx (y 0%N) (fun=> KRoot 0)).1.
pose k := KSplit (KRoot 0) 2 0.
pose X i := if i is 0%N then X0 else enkf_analysis exK (fun=> z3) (enkf_forecast exK exnx X0 0 0 k) (y 1%N) k.
have [[M1 [M2 M3]] [[C12 [C13 C23]] [C11 [C22 C33]]]] := z_moments.
have H2 : forall i, Rlt 0 ((const_mx (IZR 2) : 'cV[R]_1) i ord0) by move=> i; rewrite mxE; lra.
have H4 : forall i, Rlt 0 ((const_mx (IZR 4) : 'cV[R]_1) i ord0) by move=> i; rewrite mxE; lra.
exists X, y, k; split; first by apply: posdef_scalar; exact: Rlt_0_1.
split; first by exact: diag_posdef.
split; first by [].
split.
  exact: (@C91_kalman_initial 1 1 4 exK (const_mx (IZR 2)) (const_mx (IZR 4)) _ _ exnx y (fun=> KRoot 0)).
case=> // _ mx.
have CX Z : sample_cov z1 Z = 0 :> 'M[R]_1 -> sample_cov X0 Z = 0.
  by move=> E; rewrite /X0 [(_, _).1]/= cov_affine E mulmx0.
split; first by split; [|split] => //; exact: CX.
split; last by [].
split=> //; split=> //; rewrite /mx /enkf_forecast cov_sum cov_mul C23 mulmx0 addr0.
rewrite (@propagated_linear _ _ _ exK (IZR 2)%:M) // cov_mul.
by rewrite [X 0%N]/X CX // mulmx0.
Qed.
