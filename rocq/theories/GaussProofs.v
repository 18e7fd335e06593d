(** Proofs about Gaussian potentials. *)
From Coq Require Import Reals Lra.
From mathcomp Require Import ssreflect ssrfun ssrbool eqtype ssrnat seq choice fintype bigop ssralg matrix.
From Verif Require Import XR RStruct BfgsModel BfgsSpec BfgsProofs LinAlg GaussModel GaussSpec.
Set Implicit Arguments.
Unset Strict Implicit.
Import GRing.Theory.
Local Open Scope ring_scope.

Arguments diag_potential : simpl never.
Arguments vectorised_potential : simpl never.
Arguments mv_potential : simpl never.
Arguments half : simpl never.
Arguments single_branch : simpl never.
Arguments sqrt_branch : simpl never.
Arguments default_det : simpl never.
Arguments to_vm : simpl never.

Lemma ln_pow (x : R) n : Rlt 0 x -> ln (pow x n) = Rmult (INR n) (ln x).
Proof.
move=> Hx; elim: n => [|n IH]; first by rewrite /= ln_1 Rmult_0_l.
by rewrite [pow _ _]/= ln_mult // ?IH ?S_INR; [ring | exact: pow_lt].
Qed.
Lemma ln_sqrt (x : R) : Rlt 0 x -> ln (sqrt x) = Rdiv (ln x) 2.
Proof.
move=> Hx; have Hs := sqrt_lt_R0 _ Hx.
rewrite -{2}(sqrt_sqrt x) ?ln_mult //; [field | exact: Rlt_le].
Qed.
Lemma twopi_gt0 : Rlt 0 (Rmult 2 PI). Proof. by have := PI_RGT_0; lra. Qed.

Lemma nlogd d (x m : 'cV[R]_d) (P : 'M[R]_d) : Rlt 0 (\det P) ->
  Ropp (ln (gauss_density x m P)) = Rplus (Rdiv (bil (x - m) P (x - m)) 2) (neg_log_z1 d (\det P)).
Proof.
move=> HP; rewrite /gauss_density.
have Hq : Rlt 0 (pow (Rmult 2 PI) d) by apply: pow_lt; exact: twopi_gt0.
have H1 := sqrt_lt_R0 _ HP; have H2 := sqrt_lt_R0 _ Hq.
rewrite ln_mult; [|exact: Rdiv_lt_0_compat|exact: exp_pos].
rewrite ln_exp /Rdiv ln_mult //; last exact: Rinv_0_lt_compat.
rewrite ln_Rinv // !ln_sqrt // ln_pow; last exact: twopi_gt0.
by rewrite /neg_log_z1 /half; field.
Qed.

Lemma vectorisedE d (x m : 'cV[R]_d) (Q : 'M[R]_d) :
  vectorised_potential x m Q = half (bil (x - m) (Q *m Q^T) (x - m)).
Proof.
rewrite /vectorised_potential; congr half; rewrite bilE -mulmxA dot_adj2 /dot.
by apply: eq_bigr => j _; rewrite -[(x - m)^T *m Q]trmxK trmx_mul trmxK mxE expr2.
Qed.
Lemma mvE d (x m : 'cV[R]_d) (P : 'M[R]_d) : mv_potential x m P = half (bil (x - m) P (x - m)).
Proof. by []. Qed.
Lemma diagE d (x m v : 'cV[R]_d) : diag_potential x m v = half (bil (x - m) (diag_mx v^T) (x - m)).
Proof.
rewrite /diag_potential; congr half; rewrite bilE /dot; apply: eq_bigr => i _.
by rewrite mul_diag_mx !mxE expr2 -mulrA; congr (_ * _); rewrite mulrC.
Qed.

Definition vmat d (p : vm d) : 'M[R]_d := match p with VV v => diag_mx v^T | VM M => M end.
Lemma to_vm_mat d (p : par d) : vmat (to_vm p) = pmat p.
Proof.
case: p => //= c; apply/matrixP => i j; by rewrite !mxE.
Qed.

Lemma single_branchE d (x m : 'cV[R]_d) p : single_branch x m (Some p) = half (bil (x - m) (vmat p) (x - m)).
Proof. by rewrite /single_branch; case: p => [v|M] /=; rewrite ?diagE. Qed.

Lemma diag_posdef d (v : 'cV[R]_d) : posdef (diag_mx v^T) -> forall i, Rlt 0 (v i ord0).
Proof.
move=> [_ P] i; have := P (delta_mx i ord0).
rewrite bilE -colE dotE trmx_delta -rowE !mxE eqxx mulr1n; apply.
by move/matrixP => /(_ i ord0); rewrite !mxE !eqxx /= => /eqP; rewrite oner_eq0.
Qed.
Lemma posdef_diag d (v : 'cV[R]_d) : (forall i, Rlt 0 (v i ord0)) -> posdef (diag_mx v^T).
Proof.
move=> H; have -> : diag_mx v^T = diag_mx (\col_i sqrt (v i ord0))^T *m (diag_mx (\col_i sqrt (v i ord0))^T)^T.
  rewrite tr_diag_mx mulmx_diag; congr diag_mx; apply/matrixP => i j; rewrite !mxE.
  by rewrite -[RHS]/(Rmult _ _) (ord1 i) sqrt_sqrt //; apply: Rlt_le; exact: H.
apply: posdef_gram; rewrite unitmxE det_diag unitfE prodf_seq_neq0; apply/allP => i _ /=.
by rewrite !mxE; apply/eqP => E; have := sqrt_lt_R0 _ (H i); rewrite E; exact: Rlt_irrefl.
Qed.

Lemma sqrt_branch_prec d (x m : 'cV[R]_d) p : posdef (vmat p) ->
  sqrt_branch x m (Some p) None = half (bil (x - m) (vmat p) (x - m)).
Proof.
rewrite /sqrt_branch; case: p => [v|M] H /=.
  rewrite diagE; congr half; congr bil; congr diag_mx; apply/matrixP => i j; rewrite !mxE expr2.
  by rewrite -[LHS]/(Rmult _ _) (ord1 i) sqrt_sqrt //; apply: Rlt_le; exact: diag_posdef.
by rewrite vectorisedE; have [_ [_ ->]] := chol_correct H.
Qed.
Lemma sqrt_branch_sqrt d (x m : 'cV[R]_d) pr s :
  sqrt_branch x m pr (Some s) = half (bil (x - m) (vmat s *m (vmat s)^T) (x - m)).
Proof.
rewrite /sqrt_branch; case: s => [v|M] /=; last by rewrite vectorisedE.
rewrite diagE; congr half; congr bil; rewrite tr_diag_mx mulmx_diag; congr diag_mx.
by apply/matrixP => i j; rewrite !mxE expr2.
Qed.

Lemma det_vm_diag d (v : 'cV[R]_d) : \prod_i v i ord0 = \det (diag_mx v^T).
Proof. by rewrite det_diag; apply: eq_bigr => i _; rewrite mxE. Qed.

Lemma precision_potential d (x : 'cV[R]_d) mean p det :
  posdef (pmat p) -> det_given p (pmat p) det ->
  gaussian_potential x mean (Some p) None det = GNum _ (- ln (gauss_density x (dvec mean) (pmat p))).
Proof.
move=> Hp Hd; rewrite /gaussian_potential /default_prec /= single_branchE nlogd; last exact: posdef_det.
have -> : default_det det (Some (to_vm p)) None = Some (DScalar _ (\det (pmat p))).
  rewrite -to_vm_mat; case: Hd => [->|[->]]; first by rewrite -to_vm_mat.
  by case: p {Hp} => //= [c|v] _; rewrite /default_det /to_vm /= det_vm_diag.
by rewrite to_vm_mat.
Qed.

Lemma precision_batch d (xs : seq 'cV[R]_d) mean p (det : option R) :
  posdef (pmat p) -> det_given p (pmat p) (omap (@DScalar d) det) ->
  gaussian_potential_batch xs mean (Some p) None det
  = [seq GNum _ (- ln (gauss_density x (dvec mean) (pmat p))) | x <- xs].
Proof.
move=> Hp Hd; rewrite /gaussian_potential_batch /default_prec; apply: eq_map => x.
rewrite [omap (@to_vm _) _]/=.
have -> : default_det (omap (@DScalar d) det) (Some (to_vm p)) None = Some (DScalar _ (\det (pmat p))).
  rewrite -to_vm_mat; case: Hd => [->|[->]]; first by rewrite -to_vm_mat.
  by case: p {Hp} => //= [c|v] _; rewrite /default_det /to_vm /= det_vm_diag.
rewrite sqrt_branch_prec ?to_vm_mat // nlogd //; exact: posdef_det.
Qed.

Lemma sqrt_potential d (x : 'cV[R]_d) mean s det :
  let P := pmat s *m (pmat s)^T in
  pmat s \in unitmx -> det_given s P det ->
  gaussian_potential x mean None (Some s) det = GNum _ (- ln (gauss_density x (dvec mean) P)).
Proof.
move=> P Us Hd; have HP : posdef P by apply: posdef_gram.
rewrite /gaussian_potential /default_prec /= sqrt_branch_sqrt to_vm_mat -/P nlogd; last exact: posdef_det.
have E : default_det det None (Some (to_vm s)) = Some (DScalar _ (\det P)).
  case: Hd => [->//|[->]]; rewrite /P det_mulmx det_tr.
  by rewrite -to_vm_mat; case: s {Us HP P} => //= [c|v] _; rewrite /default_det /to_vm /= det_vm_diag expr2.
by rewrite E.
Qed.

Lemma sqrt_batch d (xs : seq 'cV[R]_d) mean s (det : option R) :
  let P := pmat s *m (pmat s)^T in
  pmat s \in unitmx -> det_given s P (omap (@DScalar d) det) ->
  gaussian_potential_batch xs mean None (Some s) det
  = [seq GNum _ (- ln (gauss_density x (dvec mean) P)) | x <- xs].
Proof.
move=> P Us Hd; apply: eq_map => x; rewrite -(sqrt_potential x mean Us Hd).
by [].
Qed.

(** Covariances *)
Lemma nldE d (x m : 'cV[R]_d) (C : 'M[R]_d) : posdef C ->
  nld x m C = Rplus (Rdiv (bil (x - m) (invmx C) (x - m)) 2) (neg_log_z1 d (\det (invmx C))).
Proof. by move=> HC; rewrite /nld nlogd //; apply: posdef_det; exact: posdef_inv. Qed.

Lemma chol_unit d (C : 'M[R]_d) : posdef C -> chol C \in unitmx.
Proof.
move=> HC; have [_ [_ E]] := chol_correct HC; have := posdef_unit HC.
by move: (chol C) E => L <-; rewrite unitmx_mul unitmx_tr andbb.
Qed.
Lemma posdef_gram_tr d (L : 'M[R]_d) : L \in unitmx -> posdef (L^T *m L).
Proof. by move=> U; have := @posdef_gram _ L^T; rewrite trmxK; apply; rewrite unitmx_tr. Qed.

Lemma invmx_mul d (A B : 'M[R]_d) : A \in unitmx -> B \in unitmx -> invmx (A *m B) = invmx B *m invmx A.
Proof. by move=> UA UB; apply: invmx_uniq; rewrite -mulmxA (mulmxA B) mulmxV // mul1mx mulmxV. Qed.

(** matrices of covariances: what the code's potential is *)
Lemma model_matrix d (C : 'M[R]_d) (x m : 'cV[R]_d) : posdef C ->
  model_potential (PMatrix C) x m = GNum _ (nld x m ((chol C)^T *m chol C)).
Proof.
move=> HC; have U := chol_unit HC; have [_ [_ E]] := chol_correct HC.
have U' : (chol C)^T \in unitmx by rewrite unitmx_tr.
rewrite /model_potential /nld invmx_mul //.
have -> : invmx (chol C)^T = (invmx (chol C))^T by rewrite trmx_inv.
apply: (@sqrt_potential d x (IVector m) (PMatrix (invmx (chol C)))) => /=; first by rewrite unitmx_inv.
left; congr (Some (DScalar _ _)); move: (chol C) U E {U'} => L U <-; rewrite !det_mulmx !det_tr !det_inv.
by rewrite invrM // -unitmxE.
Qed.

Lemma gauss_affine d (A : 'M[R]_d) (m z : 'cV[R]_d) : A \in unitmx ->
  Rmult (gauss_density (A *m z + m) m (invmx (A *m A^T))) (Rabs (\det A)) = gauss_density z 0 1%:M.
Proof.
move=> U; have U' : A^T \in unitmx by rewrite unitmx_tr.
have Dn : \det A <> 0 by move: U; rewrite unitmxE unitfE => /eqP.
rewrite /gauss_density addrK subr0 det1 sqrt_1.
have -> : bil (A *m z) (invmx (A *m A^T)) (A *m z) = bil z 1%:M z.
  by rewrite invmx_mul // !bilE mul1mx -mulmxA mulKmx // dotC dot_adj2 mulmxA mulmxV // mul1mx.
have -> : \det (invmx (A *m A^T)) = Rsqr (Rinv (\det A)).
  by rewrite det_inv det_mulmx det_tr invrM ?unitfE; try exact/eqP; rewrite /Rsqr RinvE.
rewrite sqrt_Rsqr_abs Rabs_inv; have H := Rabs_no_R0 _ Dn.
have : Rlt 0 (sqrt (pow (Rmult 2 PI) d)) by apply: sqrt_lt_R0; apply: pow_lt; exact: twopi_gt0.
by move=> Hq; field; split=> //; lra.
Qed.
