(** Properties C37, C38 and C57 to C60: Gaussian potentials and samplers. *)
From Coq Require Import Reals Lra.
From mathcomp Require Import ssreflect ssrfun ssrbool eqtype ssrnat seq choice fintype bigop ssralg matrix.
From Verif Require Import XR RStruct BfgsModel BfgsSpec BfgsProofs LinAlg GaussModel GaussSpec GaussProofs.
Set Implicit Arguments.
Unset Strict Implicit.
Import GRing.Theory.
Local Open Scope ring_scope.

Arguments chol : simpl never.

(** ** C37 *)
(** Given a precision as a number, a vector or a matrix, and the determinant
    where the code cannot find it, the value is the negative log density. *)
Theorem C37_precision d (x : 'cV[R]_d) mean p det :
  posdef (pmat p) -> det_given p (pmat p) det ->
  gaussian_potential x mean (Some p) None det = GNum _ (- ln (gauss_density x (dvec mean) (pmat p))).
Proof. exact: precision_potential. Qed.
Print Assumptions C37_precision.

Theorem C37_precision_batch d (xs : seq 'cV[R]_d) mean p (det : option R) :
  posdef (pmat p) -> det_given p (pmat p) (omap (@DScalar d) det) ->
  gaussian_potential_batch xs mean (Some p) None det
  = [seq GNum _ (- ln (gauss_density x (dvec mean) (pmat p))) | x <- xs].
Proof. exact: precision_batch. Qed.
Print Assumptions C37_precision_batch.

(** The same for a square root of the precision. *)
Theorem C37_square_root d (x : 'cV[R]_d) mean s det :
  let P := pmat s *m (pmat s)^T in
  pmat s \in unitmx -> det_given s P det ->
  gaussian_potential x mean None (Some s) det = GNum _ (- ln (gauss_density x (dvec mean) P)).
Proof. exact: sqrt_potential. Qed.
Print Assumptions C37_square_root.

Theorem C37_square_root_batch d (xs : seq 'cV[R]_d) mean s (det : option R) :
  let P := pmat s *m (pmat s)^T in
  pmat s \in unitmx -> det_given s P (omap (@DScalar d) det) ->
  gaussian_potential_batch xs mean None (Some s) det
  = [seq GNum _ (- ln (gauss_density x (dvec mean) P)) | x <- xs].
Proof. exact: sqrt_batch. Qed.
Print Assumptions C37_square_root_batch.

(** No precision at all is the standard Gaussian. *)
Theorem C37_default d (x : 'cV[R]_d) mean :
  gaussian_potential x mean None None None = GNum _ (- ln (gauss_density x (dvec mean) 1%:M)).
Proof.
rewrite -[gaussian_potential _ _ _ _ _]/(gaussian_potential x mean (Some (PScalar _ 1)) None None).
apply: (@precision_potential d x mean (PScalar _ 1)); [exact: posdef1 | by right].
Qed.
Print Assumptions C37_default.

(** Without the determinant of a matrix, the potential is off by a constant
    that does not depend on the point or the mean, in every form. *)
Theorem C37_unnormalised d (P S : 'M[R]_d) :
  posdef P -> S *m S^T = P ->
  exists k : R, forall x mean,
    [/\ gaussian_potential x mean (Some (PMatrix P)) None None
        = GNum _ (- ln (gauss_density x (dvec mean) P) - k),
        gaussian_potential x mean None (Some (PMatrix S)) None
        = GNum _ (- ln (gauss_density x (dvec mean) P) - k) &
        gaussian_potential_batch [:: x] mean (Some (PMatrix P)) None None
        = [:: GNum _ (- ln (gauss_density x (dvec mean) P) - k)]].
Proof.
move=> HP HS; exists (neg_log_z1 d (\det P)) => x mean.
have E : forall a b : R, Rminus (Rplus a b) b = a by move=> a b; ring.
rewrite !nlogd; try exact: posdef_det; rewrite E.
rewrite /gaussian_potential /gaussian_potential_batch /default_prec /= /default_det /to_vm /=.
rewrite (@single_branchE _ _ _ (VM P)) (@sqrt_branch_sqrt _ _ _ _ (VM S)) /= HS.
by rewrite (@sqrt_branch_prec _ _ _ (VM P)).
Qed.
Print Assumptions C37_unnormalised.

Lemma posdef_mx2_1112 : posdef (mx2 1 1 1 2).
Proof.
have -> : mx2 1 1 1 2 = mx2 1 0 1 1 *m (mx2 1 0 1 1)^T.
  by rewrite tr_mx2 mulmx2; apply: mx2_congr; toR; ring.
apply: posdef_gram; apply: (@unit_of_mul _ _ (mx2 1 0 (-1) 1)).
by rewrite mulmx2 -mx2_1; apply: mx2_congr; toR; ring.
Qed.
Example C37_example (x : 'cV[R]_2) :
  gaussian_potential x (IVector (cv2 1 3)) (Some (PMatrix (mx2 1 1 1 2))) None
    (Some (DScalar _ (\det (mx2 1 1 1 2))))
  = gaussian_potential x (IVector (cv2 1 3)) None (Some (PMatrix (mx2 1 0 1 1)))
    (Some (DScalar _ (\det (mx2 1 1 1 2)))).
Proof.
have E : mx2 1 0 1 1 *m (mx2 1 0 1 1)^T = mx2 1 1 1 2.
  by rewrite tr_mx2 mulmx2; apply: mx2_congr; toR; ring.
rewrite C37_precision; [|exact: posdef_mx2_1112|by left].
rewrite C37_square_root /= ?E //; last by left.
by have := posdef_unit posdef_mx2_1112; rewrite -E unitmx_mul => /andP [].
Qed.

(** ** C38 *)
(** For a covariance matrix [C] with Cholesky factor [L], [C = L L'], the
    potential is the one of the covariance [L' L].  Missing from the full
    claim: that this is [C], which holds for diagonal [C] (below) and fails in
    general (refuted below). *)
Theorem C38_matrix_partial d (C L : 'M[R]_d) (x m : 'cV[R]_d) :
  posdef C -> is_cholesky L C ->
  model_potential (PMatrix C) x m = GNum _ (nld x m (L^T *m L)).
Proof. by move=> HC HL; rewrite model_matrix // (chol_unique HL). Qed.
Print Assumptions C38_matrix_partial.

Theorem C38_diagonal_partial d (v x m : 'cV[R]_d) :
  (forall i, Rlt 0 (v i ord0)) ->
  model_potential (PMatrix (diag_mx v^T)) x m = GNum _ (nld x m (diag_mx v^T)).
Proof.
move=> Hv; have HC := posdef_diag Hv.
have HL : is_cholesky (diag_mx (\row_i sqrt (v i ord0))) (diag_mx v^T).
  split; [|split].
  - by move=> i j Hij; rewrite mxE; case: eqP => // E; rewrite E ltnn in Hij.
  - by move=> i; rewrite !mxE eqxx mulr1n; exact: sqrt_lt_R0.
  - rewrite tr_diag_mx mulmx_diag; congr diag_mx; apply/matrixP => i j; rewrite !mxE (ord1 i).
    by rewrite -[LHS]/(Rmult _ _) sqrt_sqrt //; exact: Rlt_le.
rewrite (C38_matrix_partial _ _ HC HL); congr (GNum _ (nld _ _ _)).
by case: HL => _ [_ <-]; rewrite tr_diag_mx.
Qed.
Print Assumptions C38_diagonal_partial.

(** One-dimensional models given a number. *)
Theorem C38_scalar_partial (c : R) (x m : 'cV[R]_1) :
  Rlt 0 c -> model_potential (PScalar _ c) x m = GNum _ (nld x m c%:M).
Proof.
move=> Hc; have Hs := sqrt_lt_R0 _ Hc.
have Es : sqrt c * sqrt c = c by apply: sqrt_sqrt; exact: Rlt_le.
have EP : pmat (PScalar 1 (sqrt c)^-1) *m (pmat (PScalar 1 (sqrt c)^-1))^T = invmx c%:M.
  rewrite /= tr_scalar_mx -scalar_mxM; symmetry; apply: invmx_uniq; rewrite -scalar_mxM.
  rewrite -{1}Es; congr (_%:M); move: (sqrt c) Hs => q Hq; toR; field; lra.
rewrite /nld /model_potential -EP; apply: (@sqrt_potential 1 x (IVector m) (PScalar 1 (sqrt c)^-1)).
  rewrite /= unitmxE det_scalar expr1 unitfE invr_eq0; apply/eqP => E; rewrite E in Hs; exact: Rlt_irrefl Hs.
by left; rewrite EP det_inv det_scalar expr1.
Qed.
Print Assumptions C38_scalar_partial.

(** The sampler of linear Gaussian models draws from the covariance it was
    given: the density of the sample, times the Jacobian of the map that makes
    it from standard normals, is the standard normal density. *)
Theorem C38_sampler d (C : 'M[R]_d) (m : 'cV[R]_d) : posdef C ->
  exists A : 'M[R]_d, A \in unitmx /\ forall z,
    model_sample (PMatrix C) m z = Some (A *m z + m)
    /\ Rmult (gauss_density (A *m z + m) m (invmx C)) (Rabs (\det A)) = gauss_density z 0 1%:M.
Proof.
move=> HC; exists (chol C); split; first exact: chol_unit.
move=> z; split=> //; rewrite -(gauss_affine m z (chol_unit HC)).
by have [_ [_ ->]] := chol_correct HC.
Qed.
Print Assumptions C38_sampler.

Lemma quad_lt d (x m : 'cV[R]_d) (C D : 'M[R]_d) : posdef C -> posdef D -> \det C = \det D ->
  Rlt (bil (x - m) (invmx C) (x - m)) (bil (x - m) (invmx D) (x - m)) -> Rlt (nld x m C) (nld x m D).
Proof.
move=> HC HD E H; rewrite !nldE // !det_inv E; apply: Rplus_lt_compat_r.
by apply: Rmult_lt_compat_r => //; lra.
Qed.

(** Refuted for matrices: with covariance [[1,1],[1,2]] the potential at (1,0)
    is smaller than the negative log density, so the potential is not the one
    of the sampler. *)
Theorem C38_refuted : exists (C : 'M[R]_2) (x m : 'cV[R]_2), posdef C
  /\ exists c, model_potential (PMatrix C) x m = GNum _ c /\ Rlt c (nld x m C).
Proof.
exists (mx2 1 1 1 2), (cv2 1 0), 0; split; first exact: posdef_mx2_1112.
have HL : is_cholesky (mx2 1 0 1 1) (mx2 1 1 1 2).
  split; [|split].
  - by apply: mx2P; apply: mx2P => //= _; rewrite !mxE.
  - by apply: mx2P; rewrite !mxE; exact: Rlt_0_1.
  - by rewrite tr_mx2 mulmx2; apply: mx2_congr; toR; ring.
exists (nld (cv2 1 0) 0 ((mx2 1 0 1 1)^T *m mx2 1 0 1 1)); split.
  exact: C38_matrix_partial posdef_mx2_1112 HL.
case: HL => _ [_ E]; have := posdef_unit posdef_mx2_1112; rewrite -{1}E unitmx_mul => /andP [U _].
apply: quad_lt; [exact: posdef_gram_tr|exact: posdef_mx2_1112| |].
  by rewrite -[in RHS]E !det_mulmx mulrC.
have -> : invmx (mx2 1 1 1 2) = mx2 2 (-1) (-1) 1.
  by apply: invmx_uniq; rewrite mulmx2 -mx2_1; apply: mx2_congr; toR; ring.
have -> : invmx ((mx2 1 0 1 1)^T *m mx2 1 0 1 1) = mx2 1 (-1) (-1) 2.
  by apply: invmx_uniq; rewrite tr_mx2 !mulmx2 -mx2_1; apply: mx2_congr; toR; ring.
by rewrite subr0 !bilE !mulmx2c !dot_cv2; toR; lra.
Qed.
Print Assumptions C38_refuted.

(** Refuted for numbers in more than one dimension: the determinant of the
    precision is taken to be that of one coordinate. *)
Theorem C38_scalar_refuted : exists (c : R) (x m : 'cV[R]_2), Rlt 0 c
  /\ exists v, model_potential (PScalar _ c) x m = GNum _ v /\ v <> nld x m c%:M.
Proof.
exists (IZR 4), 0, 0; have H4 : Rlt 0 4 by lra.
have S4 : sqrt 4 = IZR 2 by rewrite -(sqrt_square 2); [congr sqrt; ring | lra].
have HC : posdef ((IZR 4)%:M : 'M[R]_2).
  have -> : ((IZR 4)%:M : 'M[R]_2) = (IZR 2)%:M *m ((IZR 2)%:M)^T.
    by rewrite tr_scalar_mx -scalar_mxM; congr (_%:M); toR; ring.
  apply: posdef_gram; rewrite unitmxE det_scalar unitfE expf_neq0 //; apply/eqP => E.
  by move: E; rewrite -R0E; lra.
split=> //; rewrite /model_potential /gaussian_potential /= S4.
eexists; split; first by rewrite /default_det /=.
rewrite nldE // det_inv det_scalar /neg_log_z1 /half.
have -> : forall p, sqrt_branch 0 (dvec (IVector (0 : 'cV[R]_2))) None p = 0.
  move=> p; rewrite /sqrt_branch; case: p => [[v|M]|]; rewrite ?vectorisedE ?diagE;
    by rewrite subrr bilE mulmx0 dot0r /half -R0E /Rdiv Rmult_0_l.
rewrite subrr bilE mulmx0 dot0r -!R0E.
have -> : (GRing.inv (IZR 4) : R) = Rinv 4 by rewrite RinvE.
have -> : ((IZR 4) ^+ 2)^-1 = Rinv (Rmult 4 4) by rewrite expr2 RinvE.
rewrite ln_Rinv // ln_Rinv; last lra; rewrite (ln_mult 4 4) //.
have H : Rlt 0 (ln 4) by rewrite -ln_1; apply: ln_increasing; lra.
by apply: Rlt_not_eq; lra.
Qed.
Print Assumptions C38_scalar_refuted.

(** Refuted for vectors: the determinant stays a vector and so does the
    potential of a single point. *)
Theorem C38_vector_refuted d (v x m : 'cV[R]_d) :
  exists u, model_potential (PVector v) x m = GVec u.
Proof. by eexists; rewrite /model_potential /gaussian_potential /= /default_det /=. Qed.
Print Assumptions C38_vector_refuted.

Example C38_example : posdef (mx2 4 2 2 5) /\ is_cholesky (mx2 2 0 1 2) (mx2 4 2 2 5).
Proof.
have E : mx2 2 0 1 2 *m (mx2 2 0 1 2)^T = mx2 4 2 2 5.
  by rewrite tr_mx2 mulmx2; apply: mx2_congr; toR; ring.
split.
  rewrite -E; apply: posdef_gram; apply: (@unit_of_mul _ _ (mx2 (/ 2) 0 (- / 4) (/ 2))).
  by rewrite mulmx2 -mx2_1; apply: mx2_congr; toR; field.
split; [|split=> //].
- by apply: mx2P; apply: mx2P => //= _; rewrite !mxE.
- by apply: mx2P; rewrite !mxE; exact: Rlt_0_2.
Qed.

(** ** C57 *)
(** The Gaussian toy scenario, given a vector or a matrix of covariances, has
    half the Mahalanobis distance as potential: the negative log density up to
    a constant. *)
Theorem C57_toy_gaussian d (C : par d) : posdef (pmat C) -> (forall c, C <> PScalar _ c) ->
  exists k : R, forall x m, toy_potential C x m = Some (nld x m (pmat C) - k).
Proof.
move=> HC Hn; exists (neg_log_z1 d (\det (invmx (pmat C)))) => x m; rewrite nldE //.
have E : forall a b : R, (Rplus a b - b)%R = a by move=> a b; toR; ring.
rewrite E; case: C HC Hn => [c|v|C] HC Hn; first by case: (Hn c).
- rewrite /toy_potential /=; congr Some; have Hv := diag_posdef HC.
  have -> : invmx (diag_mx v^T) = diag_mx (\col_i (v i ord0)^-1)^T.
    apply: invmx_uniq; rewrite mulmx_diag -diag_const_mx; congr diag_mx; apply/matrixP => i j.
    rewrite !mxE mulfV //; apply/eqP => E0; have := Hv j; rewrite E0; exact: Rlt_irrefl.
  rewrite -[Rdiv _ _]/(half _) -diagE /diag_potential; congr half; apply: eq_bigr => i _.
  rewrite exprMn; congr (_ * _); rewrite !mxE exprVn expr2; congr (_^-1).
  by rewrite -[LHS]/(Rmult _ _) sqrt_sqrt //; apply: Rlt_le.
- rewrite /toy_potential /=; congr Some; rewrite -[Rdiv _ _]/(half _) -/(vectorised_potential x m _) vectorisedE.
  congr half; congr bil; rewrite trmxK; rewrite /= in HC *; have U := chol_unit HC; have [_ [_ E1]] := chol_correct HC.
  move: (chol C) U E1 => L U <-; rewrite invmx_mul ?unitmx_tr //.
  by rewrite trmx_inv.
Qed.
Print Assumptions C57_toy_gaussian.
Example C57_example (x : 'cV[R]_2) : exists v, toy_potential (PMatrix (mx2 1 1 1 2)) x 0 = Some v.
Proof.
have [k H] := @C57_toy_gaussian 2 (PMatrix (mx2 1 1 1 2)) posdef_mx2_1112 (fun c => ltac:(discriminate)).
by rewrite H; eexists.
Qed.

(** ** C58 *)
(** With identity covariances the mixture scenario has the density of the
    mixture.  Missing: other covariances, for which it fails (below). *)
Theorem C58_identity_partial d (cs : seq (component d)) (x : 'cV[R]_d) :
  (forall c, List.In c cs -> ccov c = 1%:M /\ Rlt 0 (cweight c)) ->
  mixture_potential cs x = (- ln (\sum_(c <- cs) cweight c * gauss_density x (cmean c) (invmx (ccov c))))%R.
Proof.
move=> H; rewrite /mixture_potential; congr (Ropp (ln _)); rewrite /mixture_dens.
elim: cs H => [|c cs IH] H; first by rewrite !big_nil.
rewrite !big_cons IH; last by move=> c' Hc'; apply: H; right.
congr (_ + _); have [E W] := H c (or_introl erefl).
rewrite /component_potential E; have -> : invmx (1%:M : 'M[R]_d) = 1%:M by apply: invmx_uniq; rewrite mul1mx.
have -> : chol (1%:M : 'M[R]_d) = 1%:M.
  apply: chol_unique; split; [|split]; last by rewrite trmx1 mul1mx.
    by move=> i j Hij; rewrite mxE; case: eqP => // E0; rewrite E0 ltnn in Hij.
  by move=> i; rewrite mxE eqxx; exact: Rlt_0_1.
rewrite -/(vectorised_potential x (cmean c) _) vectorisedE !trmx1 mul1mx det1.
rewrite /gauss_density det1 sqrt_1 /half.
have Hq : Rlt 0 (pow (Rmult 2 PI) d) by apply: pow_lt; exact: twopi_gt0.
have Hr : Rpower (Rmult 2 PI) (Rmult (INR d) (Rdiv 1 2)) = sqrt (pow (Rmult 2 PI) d).
  rewrite -Rpower_mult Rpower_pow; last exact: twopi_gt0.
  have -> : Rdiv 1 2 = Rinv 2 by rewrite /Rdiv Rmult_1_l.
  by rewrite Rpower_sqrt.
rewrite Hr; have Hs := sqrt_lt_R0 _ Hq; set s := sqrt (pow _ _) in Hs *.
have Hw : Rlt 0 (Rdiv (Rmult (cweight c) 1) s) by apply: Rdiv_lt_0_compat; lra.
rewrite Ropp_minus_distr /Rminus exp_plus exp_ln //.
by set e := exp _; toR; field; lra.
Qed.
Print Assumptions C58_identity_partial.

Definition comp1 (v : R) : component 1 := Comp 0 v%:M (1 / 2).
Lemma component1 (v x : R) : Rlt 0 v ->
  exp (- component_potential (comp1 v) x%:M) = Rmult (exp (- (x * x / v / 2))) (1 / 2 / v / Rpower (2 * PI) (1 / 2)).
Proof.
move=> Hv; have Hi := Rinv_0_lt_compat _ Hv.
rewrite /component_potential /comp1 [ccov _]/= [cmean _]/= [cweight _]/=.
have -> : invmx (v%:M : 'M[R]_1) = (Rinv v)%:M.
  by apply: invmx_uniq; rewrite -scalar_mxM; congr (_%:M); toR; field; lra.
rewrite chol11 // -/(vectorised_potential x%:M 0 _) vectorisedE trmxK tr_scalar_mx -scalar_mxM.
have -> : sqrt (Rinv v) * sqrt (Rinv v) = Rinv v by apply: sqrt_sqrt; exact: Rlt_le.
rewrite subr0 bilE mul_scalar_mx /half det_scalar expr1.
have -> : dot (x%:M : 'cV[R]_1) (Rinv v *: x%:M) = Rdiv (Rmult x x) v.
  by rewrite /dot big_ord_recl big_ord0 addr0 !mxE eqxx !mulr1n; toR; field; lra.
have Hp : Rlt 0 (Rpower (Rmult 2 PI) (Rdiv 1 2)) by exact: exp_pos.
rewrite Rmult_1_l Ropp_minus_distr /Rminus exp_plus exp_ln; last first.
  by apply: Rdiv_lt_0_compat => //; apply: Rmult_lt_0_compat => //; lra.
by rewrite Rmult_comm; congr (Rmult _ (Rmult _ _)).
Qed.

(** Refuted: one dimension, two components with mean 0, weight 1/2 each,
    variances 1 and 4.  The determinant enters to the power 1 instead of 1/2,
    so the wide component is given half its weight: the density is not even
    proportional to the mixture's. *)
Theorem C58_refuted : exists (cs : seq (component 1)),
  (forall c, List.In c cs -> posdef (ccov c) /\ Rlt 0 (cweight c))
  /\ \sum_(c <- cs) cweight c = 1
  /\ ~ exists k : R, forall x,
      mixture_dens cs x = (k * \sum_(c <- cs) cweight c * gauss_density x (cmean c) (invmx (ccov c)))%R.
Proof.
exists [:: comp1 1; comp1 4]; split; [|split].
- move=> c; have P : forall v, Rlt 0 v -> posdef (v%:M : 'M[R]_1) /\ Rlt 0 (Rdiv 1 2).
    move=> v Hv; split; last lra.
    have -> : (v%:M : 'M[R]_1) = (sqrt v)%:M *m ((sqrt v)%:M)^T.
      by rewrite tr_scalar_mx -scalar_mxM; congr (_%:M); rewrite -[RHS]/(Rmult _ _) sqrt_sqrt //; exact: Rlt_le.
    apply: posdef_gram; rewrite unitmxE det_scalar expr1 unitfE; apply/eqP => E.
    by have := sqrt_lt_R0 _ Hv; rewrite E; exact: Rlt_irrefl.
  by move=> /= [<-|[<-|[]]]; apply: P; lra.
- by rewrite !big_cons big_nil addr0 /=; toR; lra.
move=> [k H].
have Hp : Rlt 0 (Rpower (Rmult 2 PI) (Rdiv 1 2)) by exact: exp_pos.
have D : forall v x, Rlt 0 v -> gauss_density (x%:M : 'cV[R]_1) 0 (invmx v%:M)
  = Rmult (exp (Ropp (Rdiv (Rdiv (Rmult x x) v) 2))) (Rdiv (Rinv (sqrt v)) (Rpower (Rmult 2 PI) (Rdiv 1 2))).
  move=> v x Hv; rewrite /gauss_density subr0.
  have -> : invmx (v%:M : 'M[R]_1) = (Rinv v)%:M.
    by apply: invmx_uniq; rewrite -scalar_mxM; congr (_%:M); toR; field; lra.
  rewrite bilE mul_scalar_mx det_scalar expr1.
  have -> : dot (x%:M : 'cV[R]_1) (Rinv v *: x%:M) = Rdiv (Rmult x x) v.
    by rewrite /dot big_ord_recl big_ord0 addr0 !mxE eqxx !mulr1n; toR; field; lra.
  rewrite sqrt_inv // pow_1 -(Rpower_sqrt (Rmult 2 PI)); last exact: twopi_gt0.
  have -> : Rdiv 1 2 = Rinv 2 by rewrite /Rdiv Rmult_1_l.
  by rewrite Rmult_comm.
have S4 : sqrt 4 = IZR 2 by rewrite -(sqrt_square 2); [congr sqrt; ring | lra].
have H' x : mixture_dens [:: comp1 1; comp1 4] x%:M
   = Rmult k (\sum_(c <- [:: comp1 1; comp1 4]) cweight c * gauss_density x%:M (cmean c) (invmx (ccov c))) by exact: H.
move: (H' (IZR 0)) (H' (IZR 2)); rewrite /mixture_dens !big_cons !big_nil !addr0.
rewrite !component1; try lra; rewrite /= !D; try lra.
rewrite sqrt_1 S4; set q := Rpower _ _ in Hp *.
have E0 : forall v : R, Ropp (Rdiv (Rdiv (Rmult 0 0) v) 2) = IZR 0 by move=> v; rewrite /Rdiv !Rmult_0_l Ropp_0.
rewrite !E0 exp_0 -!RplusE -!RmultE.
have -> : Ropp (Rdiv (Rdiv (Rmult 2 2) 1) 2) = IZR (-2) by field.
have -> : Ropp (Rdiv (Rdiv (Rmult 2 2) 4) 2) = Ropp (Rinv 2) by field.
set a := exp (-2); set b := exp (- / 2).
have Hab : Rlt a b by apply: exp_increasing; lra.
move=> E1 E2.
have Hk : k = Rdiv 5 6.
  apply: (Rmult_eq_reg_l (Rdiv (Rdiv 3 4) q)); last first.
    by apply: Rgt_not_eq; apply: Rdiv_lt_0_compat; lra.
  by transitivity (Rmult k (Rplus (Rmult (Rdiv 1 2) (Rmult 1 (Rdiv (Rinv 1) q))) (Rmult (Rdiv 1 2) (Rmult 1 (Rdiv (Rinv 2) q)))));
    [field; lra | rewrite -E1; field; lra].
move: E2; rewrite Hk => /(congr1 (Rmult q)).
have -> : Rmult q (Rplus (Rmult a (Rdiv (Rdiv (Rdiv 1 2) 1) q)) (Rmult b (Rdiv (Rdiv (Rdiv 1 2) 4) q))) = Rplus (Rdiv a 2) (Rdiv b 8).
  by field; lra.
have -> : Rmult q (Rmult (Rdiv 5 6) (Rplus (Rmult (Rdiv 1 2) (Rmult a (Rdiv (Rinv 1) q))) (Rmult (Rdiv 1 2) (Rmult b (Rdiv (Rinv 2) q)))))
  = Rmult (Rdiv 5 6) (Rplus (Rdiv a 2) (Rdiv b 4)) by field; lra.
lra.
Qed.
Print Assumptions C58_refuted.
Example C58_example (x : 'cV[R]_2) : mixture_potential [:: Comp (cv2 1 0) 1%:M (1 / 3); Comp (cv2 0 5) 1%:M (2 / 3)] x
  = (- ln (\sum_(c <- [:: Comp (cv2 1 0) 1%:M (1 / 3); Comp (cv2 0 5) 1%:M (2 / 3)])
             cweight c * gauss_density x (cmean c) (invmx (ccov c))))%R.
Proof. by apply: C58_identity_partial => c /= [<-|[<-|[]]]; split=> //=; lra. Qed.

(** ** C59 *)
(** Stochastic volatility: the transition is sampled with covariance [dt C]. *)
Theorem C59_sampler d (F C : 'M[R]_d) (dt : R) (x : 'cV[R]_d) : posdef C -> Rlt 0 dt ->
  exists A : 'M[R]_d, A \in unitmx /\ forall z,
    sv_transition_sample F C dt x z = A *m z + F *m x
    /\ Rmult (gauss_density (A *m z + F *m x) (F *m x) (invmx (dt *: C))) (Rabs (\det A))
       = gauss_density z 0 1%:M.
Proof.
move=> HC Ht; exists (sqrt dt *: chol C); have Hs := sqrt_lt_R0 _ Ht.
have U : sqrt dt *: chol C \in unitmx.
  rewrite unitmxZ ?chol_unit //; rewrite unitfE; apply/eqP => E; rewrite E in Hs; exact: Rlt_irrefl Hs.
split=> // z; split; first by rewrite /sv_transition_sample addrC -scalemxAl.
rewrite -(gauss_affine (F *m x) z U); congr (Rmult (gauss_density _ _ (invmx _)) _).
rewrite [(_ *: _)^T]linearZ /= -scalemxAl -scalemxAr scalerA.
have [_ [_ ->]] := chol_correct HC; congr (_ *: _).
by symmetry; apply: sqrt_sqrt; exact: Rlt_le.
Qed.
Print Assumptions C59_sampler.

(** The potential is the sampler's, up to a constant, when the time step is 1
    and the covariance diagonal.  Missing: other steps (refuted) and other
    covariances (as in C38). *)
Theorem C59_unit_step_partial d (F : 'M[R]_d) (v : 'cV[R]_d) : (forall i, Rlt 0 (v i ord0)) ->
  exists k : R, forall x x',
    sv_transition_potential F (diag_mx v^T) 1 x x' = GNum _ (nld x' (F *m x) (1 *: diag_mx v^T) - k).
Proof.
move=> Hv; have HC := posdef_diag Hv; rewrite scale1r.
have HL : is_cholesky (diag_mx (\row_i sqrt (v i ord0))) (diag_mx v^T).
  split; [|split].
  - by move=> i j Hij; rewrite mxE; case: eqP => // E; rewrite E ltnn in Hij.
  - by move=> i; rewrite !mxE eqxx mulr1n; exact: sqrt_lt_R0.
  - rewrite tr_diag_mx mulmx_diag; congr diag_mx; apply/matrixP => i j; rewrite !mxE (ord1 i).
    by rewrite -[LHS]/(Rmult _ _) sqrt_sqrt //; exact: Rlt_le.
have U : diag_mx (\row_i sqrt (v i ord0)) \in unitmx by rewrite -(chol_unique HL); exact: chol_unit.
exists (neg_log_z1 d (\det (invmx (diag_mx v^T)))) => x x'.
have E : forall a b : R, Rminus (Rplus a b) b = a by move=> a b; ring.
rewrite nldE // E /sv_transition_potential (chol_unique HL).
rewrite /gaussian_potential /default_prec /= /default_det /to_vm /= sqrt_1.
rewrite (@sqrt_branch_sqrt _ _ _ _ (VM _)) /=; congr (GNum _ (half (bil _ _ _))).
case: HL => _ [_ <-]; rewrite invmx_mul ?unitmx_tr // scale1r trmx_inv.
move: (diag_mx _) U (tr_diag_mx (\row_i sqrt (v i ord0))) => D U ->.
by [].
Qed.
Print Assumptions C59_unit_step_partial.

(** Refuted for other steps: with step 4 the potential contracts where the
    sampler spreads. *)
Theorem C59_refuted : exists (C : 'M[R]_1) (dt : R), posdef C /\ Rlt 0 dt
  /\ ~ exists k : R, forall x x',
       sv_transition_potential 1%:M C dt x x' = GNum _ (nld x' (1%:M *m x) (dt *: C) - k).
Proof.
exists 1%:M, (IZR 4); split; [exact: posdef1 | split; first lra].
have S4 : sqrt 4 = IZR 2 by rewrite -(sqrt_square 2); [congr sqrt; ring | lra].
have HC : posdef ((IZR 4) *: (1%:M : 'M[R]_1)).
  have -> : (IZR 4) *: (1%:M : 'M[R]_1) = (IZR 2)%:M *m ((IZR 2)%:M)^T.
    by rewrite tr_scalar_mx -scalar_mxM scale_scalar_mx mulr1; congr (_%:M); toR; ring.
  by apply: posdef_gram; rewrite unitmxE det_scalar unitfE expr1; apply/eqP; rewrite -R0E; lra.
move=> [k H].
have Q x' : exists q, sv_transition_potential 1%:M 1%:M (IZR 4) (0 : 'cV[R]_1) x'%:M = GNum _ q
   /\ q = Rmult 2 (Rmult x' x').
  eexists; split.
    rewrite /sv_transition_potential /gaussian_potential /default_prec /= /default_det /to_vm /= S4.
    by rewrite (@sqrt_branch_sqrt _ _ _ _ (VM _)).
  have -> : chol (1%:M : 'M[R]_1) = 1%:M.
    rewrite chol11 ?sqrt_1 //; exact: Rlt_0_1.
  have -> : invmx (1%:M : 'M[R]_1) = 1%:M by apply: invmx_uniq; rewrite mul1mx.
  rewrite /= [(_ *: _)^T]linearZ /= trmx1 -scalemxAl !mul1mx scalerA subr0 bilE -scalemxAl mul1mx /half.
  rewrite /dot big_ord_recl big_ord0 addr0 !mxE eqxx !mulr1n; toR; field.
have [q0 [E0 Eq0]] := Q (IZR 0); have [q2 [E2 Eq2]] := Q (IZR 2).
have I4 : invmx ((IZR 4) *: (1%:M : 'M[R]_1)) = (Rinv 4)%:M.
  by apply: invmx_uniq; rewrite scale_scalar_mx mulr1 -scalar_mxM; congr (_%:M); toR; field.
have N x' : nld (x'%:M : 'cV[R]_1) (1%:M *m 0) ((IZR 4) *: 1%:M)
  = Rplus (Rdiv (Rmult x' x') 8) (neg_log_z1 1 (\det (invmx ((IZR 4) *: (1%:M : 'M[R]_1))))).
  rewrite nldE //; congr Rplus; rewrite mulmx0 subr0 I4 bilE mul_scalar_mx.
  by rewrite /dot big_ord_recl big_ord0 addr0 !mxE eqxx !mulr1n; toR; field.
have := H 0 (IZR 0)%:M; have := H 0 (IZR 2)%:M; rewrite E0 E2 !N => [[A2]] [A0].
by move: A2 A0; rewrite Eq0 Eq2; lra.
Qed.
Print Assumptions C59_refuted.
Example C59_example : posdef (mx2 1 1 1 2) /\ Rlt 0 (1 / 2).
Proof. by split; [exact: posdef_mx2_1112 | lra]. Qed.

(** ** C60 *)
(** Nonlinear Gaussian models: the transition sampler draws from the density
    its potential evaluates, with covariance [L' L].  Missing: that this is the
    covariance given (refuted). *)
Theorem C60_transition_partial d (C L : 'M[R]_d) (m : 'cV[R]_d) : posdef C -> is_cholesky L C ->
  exists A : 'M[R]_d, A \in unitmx /\ forall z,
    let x := nonlinear_transition_sample C m z in
    [/\ x = A *m z + m,
        Rmult (gauss_density x m (invmx (L^T *m L))) (Rabs (\det A)) = gauss_density z 0 1%:M &
        model_potential (PMatrix C) x m = GNum _ (nld x m (L^T *m L))].
Proof.
move=> HC HL; exists L^T; have U := chol_unit HC; rewrite (chol_unique HL) in U.
have U' : L^T \in unitmx by rewrite unitmx_tr.
split=> // z /=; rewrite /nonlinear_transition_sample (chol_unique HL) trmx_mul trmxK addrC.
split=> //; last exact: C38_matrix_partial.
by have := gauss_affine m z U'; rewrite trmxK.
Qed.
Print Assumptions C60_transition_partial.

Theorem C60_refuted : exists (C : 'M[R]_2) (m : 'cV[R]_2), posdef C
  /\ forall A : 'M[R]_2, (forall z, nonlinear_transition_sample C m z = A *m z + m) ->
     exists z, Rmult (gauss_density (A *m z + m) m (invmx C)) (Rabs (\det A)) <> gauss_density z 0 1%:M.
Proof.
exists (mx2 1 1 1 2), 0; split; first exact: posdef_mx2_1112.
have HL : is_cholesky (mx2 1 0 1 1) (mx2 1 1 1 2).
  split; [|split].
  - by apply: mx2P; apply: mx2P => //= _; rewrite !mxE.
  - by apply: mx2P; rewrite !mxE; exact: Rlt_0_1.
  - by rewrite tr_mx2 mulmx2; apply: mx2_congr; toR; ring.
move=> A HA; exists (cv2 1 0) => E.
have EA (z : 'cV[R]_2) : A *m z = mx2 1 1 0 1 *m z.
  have := HA z; rewrite /nonlinear_transition_sample (chol_unique HL) trmx_mul trmxK tr_mx2 addrC.
  by move/addIr.
have {}EA : A = mx2 1 1 0 1.
  by apply/matrixP => i j; have := EA (delta_mx j ord0); rewrite -!colE => /matrixP /(_ i ord0); rewrite !mxE.
have U : mx2 1 1 0 1 \in unitmx.
  by apply: (@unit_of_mul _ _ (mx2 1 (-1) 0 1)); rewrite mulmx2 -mx2_1; apply: mx2_congr; toR; ring.
move: E; rewrite -(gauss_affine 0 (cv2 1 0) U) EA => E.
have Hd : Rabs (\det (mx2 1 1 0 1)) <> IZR 0.
  by apply: Rabs_no_R0; move: U; rewrite unitmxE unitfE => /eqP.
have {E} := Rmult_eq_reg_r _ _ _ E Hd.
rewrite mulmx2c => /(congr1 ln) /(congr1 Ropp).
rewrite !nlogd; try by apply: posdef_det; apply: posdef_inv; [exact: posdef_mx2_1112 || exact: posdef_gram].
have -> : \det (invmx (mx2 1 1 1 2)) = \det (invmx (mx2 1 1 0 1 *m (mx2 1 1 0 1)^T)).
  by case: HL => _ [_ <-]; rewrite !tr_mx2 !det_inv !det_mulmx mulrC.
have -> : invmx (mx2 1 1 1 2) = mx2 2 (-1) (-1) 1.
  by apply: invmx_uniq; rewrite mulmx2 -mx2_1; apply: mx2_congr; toR; ring.
have I : invmx (mx2 1 1 0 1 *m (mx2 1 1 0 1)^T) = mx2 1 (-1) (-1) 2.
  by apply: invmx_uniq; rewrite tr_mx2 !mulmx2 -mx2_1; apply: mx2_congr; toR; ring.
move/(Rplus_eq_reg_r _ _ _); rewrite I subr0 addr0 !bilE !mulmx2c !dot_cv2; toR; lra.
Qed.
Print Assumptions C60_refuted.

(** ** C61 *)
(** Stochastic volatility with a vector or number of likelihood variances: the
    likelihood's potential is the negative log density of independent
    coordinates with variances [v_i exp(x_i)], and the sampler draws from it. *)
Theorem C61_likelihood d (C : par d) (v x : 'cV[R]_d) :
  (C = PVector v \/ exists c, C = PScalar _ c /\ v = const_mx c) ->
  (forall i, Rlt 0 (v i ord0)) ->
  let K := diag_mx (\row_i (v i ord0 * exp (x i ord0))) in
  (forall y, sv_likelihood_potential C x y = GNum _ (nld y 0 K))
  /\ exists A : 'M[R]_d, A \in unitmx /\ forall z,
       sv_likelihood_sample C x z = Some (A *m z + 0)
       /\ Rmult (gauss_density (A *m z + 0) 0 (invmx K)) (Rabs (\det A)) = gauss_density z 0 1%:M.
Proof.
move=> HCv Hv K; set s := (\col_i (sqrt (v i ord0) * exp (1 / 2 * x i ord0)))%R : 'cV[R]_d.
have Hs i : Rlt 0 (s i ord0).
  by rewrite mxE; apply: Rmult_lt_0_compat; [exact: sqrt_lt_R0 | exact: exp_pos].
have Hs0 i : s i ord0 != 0 by apply/eqP => E; have := Hs i; rewrite E; exact: Rlt_irrefl.
have Us : diag_mx s^T \in unitmx.
  by rewrite unitmxE det_diag unitfE prodf_seq_neq0; apply/allP => i _ /=; rewrite [s^T _ _]mxE.
have EK : diag_mx s^T *m (diag_mx s^T)^T = K.
  rewrite tr_diag_mx mulmx_diag; congr diag_mx; apply/matrixP => i j; rewrite (ord1 i) [LHS]mxE [s^T _ _]mxE !mxE.
  have E1 : Rmult (exp (1 / 2 * x j ord0)) (exp (1 / 2 * x j ord0)) = exp (x j ord0).
    by rewrite -exp_plus; congr exp; field.
  have E2 : Rmult (sqrt (v j ord0)) (sqrt (v j ord0)) = v j ord0 by apply: sqrt_sqrt; exact: Rlt_le.
  by rewrite -[in RHS]E1 -[in RHS]E2 /=; toR; ring.
have Hs' : sv_likelihood_prec_sqrt C x = PVector (\col_i (s i ord0)^-1).
  case: HCv => [->|[c [-> Ev]]]; rewrite /sv_likelihood_prec_sqrt /=; congr PVector; apply/matrixP => i j; rewrite !mxE.
    by rewrite -[RHS]RinvE Rinv_mult -RinvE.
  by rewrite Ev mxE -[RHS]RinvE Rinv_mult -RinvE.
have Ei : pmat (PVector (\col_i (s i ord0)^-1)) *m (pmat (PVector (\col_i (s i ord0)^-1)))^T = invmx K.
  rewrite -EK tr_diag_mx invmx_mul //.
  have -> : invmx (diag_mx s^T) = diag_mx (\col_i (s i ord0)^-1)^T.
    apply: invmx_uniq; rewrite mulmx_diag -diag_const_mx; congr diag_mx; apply/matrixP => i j.
    by rewrite !mxE mulfV //; have := Hs0 j; rewrite mxE.
  by rewrite /= tr_diag_mx.
split.
  move=> y; rewrite /sv_likelihood_potential Hs' /nld -Ei.
  have -> : (0 : 'cV[R]_d) = dvec (IScalar d 0) by apply/matrixP => i j; rewrite !mxE.
  apply: (@sqrt_potential d y (IScalar d 0) (PVector (\col_i (s i ord0)^-1))); last by right.
  rewrite unitmxE det_diag unitfE prodf_seq_neq0; apply/allP => i _ /=.
  by rewrite mxE [X in X != 0]mxE invr_eq0.
exists (diag_mx s^T); split=> // z; split; last by rewrite -EK; exact: gauss_affine.
have -> : diag_mx s^T *m z + 0 = \col_i (s i ord0 * z i ord0)%R.
  by rewrite addr0; apply/matrixP => i j; rewrite (ord1 j) mul_diag_mx !mxE.
case: HCv => [->|[c [-> Ev]]]; rewrite /sv_likelihood_sample /=; congr Some; apply/matrixP => i j; rewrite !mxE //.
by rewrite Ev mxE.
Qed.
Print Assumptions C61_likelihood.

(** Refuted for the default, the identity matrix, already in one dimension:
    the normalising term, which depends on the state, is left out, so as a
    function of the state the potential is wrong by more than a constant; and
    the sampler has no value of the right shape. *)
Theorem C61_default_refuted :
  (~ exists k : R, forall x y : 'cV[R]_1,
     sv_likelihood_potential (PMatrix 1%:M) x y = GNum _ (nld y 0 (diag_mx (\row_i (1 * exp (x i ord0)))) - k))
  /\ forall x z : 'cV[R]_1, sv_likelihood_sample (PMatrix 1%:M) x z = None.
Proof.
split=> //; move=> [k H].
have Q x : sv_likelihood_potential (PMatrix (1%:M : 'M[R]_1)) x 0 = GNum _ 0.
  rewrite /sv_likelihood_potential /gaussian_potential /default_prec /= /default_det /to_vm /=.
  rewrite (@sqrt_branch_sqrt _ _ _ _ (VM _)) bilE.
  have -> : const_mx 0 = 0 :> 'cV[R]_1 by apply/matrixP => i j; rewrite !mxE.
  by rewrite subrr mulmx0 dot0r /half -R0E /Rdiv Rmult_0_l.
have N x : nld (0 : 'cV[R]_1) 0 (diag_mx (\row_i (1 * exp ((x%:M : 'cV[R]_1) i ord0))%R))
   = Rdiv (Rplus (Rmult (INR 1) (ln (Rmult 2 PI))) x) 2.
  have E : diag_mx (\row_i (1 * exp ((x%:M : 'cV[R]_1) i ord0))%R) = (exp x)%:M :> 'M[R]_1.
    by apply/matrixP => i j; rewrite !mxE !ord1 !eqxx !mulr1n mul1r.
  have HK : posdef (diag_mx (\row_i (1 * exp ((x%:M : 'cV[R]_1) i ord0))%R)).
    rewrite -[\row_i _]trmxK; apply: posdef_diag => i; rewrite !mxE mul1r; exact: exp_pos.
  rewrite nldE // subrr bilE mulmx0 dot0r E det_inv det_scalar expr1 /neg_log_z1 /half -RinvE ln_Rinv ?ln_exp; last exact: exp_pos.
  by rewrite -R0E; field.
have := H (IZR 0)%:M 0; have := H (IZR 1)%:M 0; rewrite !Q => [[A1]] [A0].
move: A1 A0; rewrite -[in X in X -> _]/(nld _ _ _).
have M : forall x : R, diag_mx (\row_i (Rmult 1 (exp ((x%:M : 'cV[R]_1) i ord0)))) = diag_mx (\row_i (1 * exp ((x%:M : 'cV[R]_1) i ord0))%R) by [].
by rewrite !M !N; lra.
Qed.
Print Assumptions C61_default_refuted.
Example C61_example (y : 'cV[R]_2) : exists c, sv_likelihood_potential (PVector (cv2 1 2)) (cv2 3 (-1)) y = GNum _ c.
Proof.
have [|H _] := @C61_likelihood 2 (PVector (cv2 1 2)) (cv2 1 2) (cv2 3 (-1)) (or_introl erefl).
  by apply: mx2P; rewrite !mxE; [exact: Rlt_0_1 | exact: Rlt_0_2].
by eexists; exact: H.
Qed.
