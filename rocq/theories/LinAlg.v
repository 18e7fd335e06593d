(** Positive definite matrices over the reals: invertibility, determinants,
    Cholesky factors, the determinant identity of Sylvester. *)
From Coq Require Import Reals Lra.
From mathcomp Require Import ssreflect ssrfun ssrbool eqtype ssrnat seq choice fintype bigop ssralg matrix mxalgebra.
From Verif Require Import XR RStruct BfgsModel BfgsSpec BfgsProofs.
Set Implicit Arguments.
Unset Strict Implicit.
Import GRing.Theory.
Local Open Scope ring_scope.

Lemma dot_adj2 m n (M : 'M[R]_(m, n)) z w : dot w (M *m z) = dot (M^T *m w) z.
Proof. by rewrite !dotE trmx_mul trmxK mulmxA. Qed.

Section PD.
Variable d : nat.
Implicit Types (A B : 'M[R]_d).

Lemma posdef_psd A : posdef A -> psd A.
Proof.
move=> [S P]; split=> // z; case: (z =P 0) => [->|/P]; last exact: Rlt_le.
by rewrite bilE mulmx0 dot0r; exact: Rle_refl.
Qed.

Lemma posdef_unit A : posdef A -> A \in unitmx.
Proof.
move=> [S P]; rewrite -row_free_unit; apply/inj_row_free => v Hv.
have E : A *m v^T = 0 by rewrite -[LHS]trmxK trmx_mul trmxK S Hv trmx0.
apply/eqP; rewrite -trmx_eq0; apply/eqP; case: (v^T =P 0) => // /P.
by rewrite bilE E dot0r => /Rlt_irrefl.
Qed.

Lemma posdef_inv A : posdef A -> posdef (invmx A).
Proof.
move=> HA; have U := posdef_unit HA; case: HA => S P; split; first by rewrite trmx_inv S.
move=> z Hz; have Hy : invmx A *m z <> 0.
  by move=> E; apply: Hz; rewrite -[z](mulKVmx U) E mulmx0.
by have := P _ Hy; rewrite !bilE mulKVmx // dotC.
Qed.

Lemma posdef_add A B : posdef A -> psd B -> posdef (A + B).
Proof.
move=> [S P] [S' P']; split; first by rewrite linearD /= S S'.
move=> z Hz; rewrite bilE mulmxDl dotDr -!bilE.
exact: (Rplus_lt_le_0_compat _ _ (P z Hz) (P' z)).
Qed.

Lemma psd_congr n (F : 'M[R]_(n, d)) A : psd A -> psd (F *m A *m F^T).
Proof.
move=> [S P]; split; first by rewrite !trmx_mul trmxK S mulmxA.
by move=> z; rewrite bilE -!mulmxA dot_adj2 -bilE.
Qed.

Lemma psd_gram n (F : 'M[R]_(d, n)) : psd (F *m F^T).
Proof.
split; first by rewrite trmx_mul trmxK.
by move=> z; rewrite bilE -mulmxA dot_adj2; exact: dot_ge0.
Qed.

Lemma posdef_gram (F : 'M[R]_d) : F \in unitmx -> posdef (F *m F^T).
Proof.
move=> U; split; first by rewrite trmx_mul trmxK.
move=> z Hz; rewrite bilE -mulmxA dot_adj2; apply: dot_gt0 => E; apply: Hz.
have U' : F^T \in unitmx by rewrite unitmx_tr.
by rewrite -[LHS](mulKmx U') E mulmx0.
Qed.

Lemma posdef1 : posdef (1%:M : 'M[R]_d).
Proof. split; [by rewrite trmx1 | by move=> z Hz; rewrite bilE mul1mx; exact: dot_gt0]. Qed.
End PD.

(** ** Cholesky factors *)
Definition is_cholesky n (L A : 'M[R]_n) : Prop :=
  (forall i j : 'I_n, (i < j)%N -> L i j = 0) /\ (forall i, Rlt 0 (L i i)) /\ L *m L^T = A.

Lemma posdef_block_ul n (A : 'M[R]_(1 + n)) : posdef A -> Rlt 0 (A ord0 ord0).
Proof.
move=> [_ P]; have := P (delta_mx ord0 ord0).
rewrite bilE -colE dotE /=; have -> : ((delta_mx ord0 ord0 : 'cV[R]_(1 + n))^T *m col ord0 A) ord0 ord0 = A ord0 ord0.
  by rewrite trmx_delta -rowE !mxE.
apply=> /matrixP /(_ ord0 ord0); rewrite !mxE !eqxx /= => /eqP; by rewrite oner_eq0.
Qed.

(** The recursive Cholesky factorisation: first column, then the Schur
    complement. *)
Fixpoint chol (n : nat) : 'M[R]_n -> 'M[R]_n :=
  match n with
  | 0 => fun A => A
  | n'.+1 => fun A : 'M[R]_(1 + n') =>
      let a := A ord0 ord0 in
      let b := dlsubmx A in
      (block_mx (sqrt a)%:M 0 ((sqrt a)^-1 *: b) (chol (drsubmx A - a^-1 *: (b *m b^T))) : 'M[R]_(1 + n'))
  end.

Lemma schur_posdef n (A : 'M[R]_(1 + n)) : posdef A ->
  posdef (drsubmx A - (A ord0 ord0)^-1 *: (dlsubmx A *m (dlsubmx A)^T)).
Proof.
move=> HA; have Ha := posdef_block_ul HA; case: HA => S P.
set a := A ord0 ord0 in Ha *; set b := dlsubmx A; set C := drsubmx A.
have EA : A = block_mx a%:M b^T b C.
  rewrite -[A in LHS]submxK; congr block_mx; last by rewrite -[in LHS]S /b -trmx_dlsub.
  rewrite [ulsubmx A]mx11_scalar /a !mxE; congr ((A _ _)%:M); exact/val_inj.
have SC : C^T = C by rewrite /C trmx_drsub S.
split; first by rewrite linearB /= linearZ /= trmx_mul trmxK SC.
move=> w Hw.
set t := - (a^-1 * dot b w).
have := P (col_mx t%:M w); rewrite bilE EA mul_block_col.
have -> : a%:M *m t%:M + b^T *m w = 0.
  rewrite dot11 -scalar_mxM -raddfD /=.
  suff -> : a * t + dot b w = 0 by rewrite scalemx1 || rewrite raddf0.
  by rewrite /t; toR; field; lra.
rewrite dotE tr_col_mx mul_row_col mulmx0 add0r => H.
rewrite bilE dotE; have -> : (C - a^-1 *: (b *m b^T)) *m w = b *m t%:M + C *m w.
  rewrite mulmxBl -scalemxAl -mulmxA dot11 !mul_mx_scalar scalerA addrC /t; congr (_ + _).
  by rewrite scaleNr.
apply: H => /(congr1 (@dsubmx _ _ _ _)); rewrite col_mxKd => E; apply: Hw.
by rewrite E; apply/matrixP => i j; rewrite !mxE.
Qed.

Lemma chol_correct n (A : 'M[R]_n) : posdef A -> is_cholesky (chol A) A.
Proof.
elim: n A => [|n IH] A HA.
  by split; [case | split; [case | apply/matrixP; case]].
have Ha := posdef_block_ul HA; have HS := schur_posdef HA; have [S _] := HA.
have [L0 [LD LL]] := IH _ HS.
rewrite -[n.+1]/(1 + n)%N in A HA Ha HS S L0 LD LL *.
rewrite [chol A]/=.
set a := A ord0 ord0 in Ha HS L0 LD LL *; set b := dlsubmx A in HS L0 LD LL *.
set T := chol _ in L0 LD LL *.
have Hs := sqrt_lt_R0 _ Ha.
have Hsq : sqrt a * sqrt a = a by apply: sqrt_sqrt; apply: Rlt_le.
split; [|split].
- move=> i j; rewrite -[i]splitK -[j]splitK; case: (split i) => i'; case: (split j) => j' /=.
  + by rewrite !ord1.
  + by move=> _; rewrite block_mxEur mxE.
  + by rewrite ord1.
  + by rewrite ltn_add2l => H; rewrite block_mxEdr; exact: L0.
- move=> i; rewrite -[i]splitK; case: (split i) => i' /=.
    by rewrite block_mxEul ord1 mxE eqxx mulr1n.
  by rewrite block_mxEdr.
rewrite tr_block_mx tr_scalar_mx trmx0 mulmx_block !mul0mx !mulmx0 !addr0.
rewrite -scalar_mxM Hsq linearZ /= mul_scalar_mx scalerA.
rewrite -scalemxAl mul_mx_scalar scalerA -scalemxAl -scalemxAr scalerA LL.
have E1 : sqrt a / sqrt a = 1 by toR; field; lra.
have E2 : (sqrt a)^-1 / sqrt a = a^-1.
  by rewrite -[in RHS]Hsq; move: (sqrt a) Hs => q Hq; toR; field; lra.
have E3 : (sqrt a)^-1 * sqrt a = 1 by toR; field; lra.
rewrite E1 E2 E3 !scale1r [X in block_mx _ _ _ X]addrC subrK -[RHS]submxK; congr block_mx.
  rewrite [ulsubmx A]mx11_scalar /a !mxE; congr ((A _ _)%:M); exact/val_inj.
by rewrite /b trmx_dlsub S.
Qed.

Lemma posdef_det n (A : 'M[R]_n) : posdef A -> Rlt 0 (\det A).
Proof.
move=> HA; have [_ [_ E]] := chol_correct HA; have := posdef_unit HA.
rewrite unitmxE unitfE => /eqP; rewrite -E det_mulmx det_tr => H.
by apply: Rsqr_pos_lt => E0; apply: H; rewrite E0 mul0r.
Qed.

Lemma det_sylvester m n (A : 'M[R]_(m, n)) (B : 'M[R]_(n, m)) :
  \det (1%:M + A *m B) = \det (1%:M + B *m A).
Proof.
have E1 : block_mx (1%:M : 'M[R]_m) (- A) B (1%:M : 'M[R]_n)
  = block_mx 1%:M 0 B 1%:M *m block_mx 1%:M (- A) 0 (1%:M + B *m A).
  by rewrite mulmx_block !mul1mx !mulmx0 !mul0mx !mulmx1 !addr0 mulmxN addrCA addNr addr0.
have E2 : block_mx (1%:M : 'M[R]_m) (- A) B (1%:M : 'M[R]_n)
  = block_mx 1%:M (- A) 0 1%:M *m block_mx (1%:M + A *m B) 0 B 1%:M.
  by rewrite mulmx_block !mul1mx !mulmx0 !mul0mx !mulmx1 !add0r mulNmx addrK.
have := congr1 determinant E1; rewrite E2 !det_mulmx !det_lblock !det_ublock !det1 !mul1r !mulr1.
by [].
Qed.

(** Cholesky factors are unique. *)
Lemma chol_unique n (L A : 'M[R]_n) : is_cholesky L A -> chol A = L.
Proof.
elim: n L A => [|n IH] L A [L0 [LD LL]]; first by apply/matrixP; case.
rewrite -[n.+1]/(1 + n)%N in L A L0 LD LL *.
set l := L ord0 ord0; set b := dlsubmx L; set T := drsubmx L.
have Hl : Rlt 0 l := LD ord0.
have EL : L = block_mx l%:M 0 b T.
  rewrite -[LHS]submxK; congr block_mx.
    rewrite [ulsubmx L]mx11_scalar /l !mxE; congr ((L _ _)%:M); exact/val_inj.
  by apply/matrixP => i j; rewrite !mxE; apply: L0; rewrite ord1.
have EA : A = block_mx (l * l)%:M (l *: b^T) (l *: b) (b *m b^T + T *m T^T).
  rewrite -LL EL tr_block_mx tr_scalar_mx trmx0 mulmx_block !mul0mx !mulmx0 !addr0.
  by rewrite -scalar_mxM mul_scalar_mx mul_mx_scalar.
have Ea : A ord0 ord0 = l * l.
  have -> : ord0 = lshift n ord0 :> 'I_(1 + n) by exact/val_inj.
  by rewrite EA block_mxEul mxE eqxx mulr1n.
have Hs : sqrt (l * l)%R = l by rewrite -[l * l]/(Rmult l l) sqrt_square //; exact: Rlt_le.
have nl : l <> 0 by move=> E; move: Hl; rewrite E; exact: Rlt_irrefl.
have E1 : l^-1 * l = 1 by apply: mulVf; exact/eqP.
rewrite [chol A]/= Ea Hs EA block_mxKdl block_mxKdr scalerA E1 scale1r.
have -> : b *m b^T + T *m T^T - (l * l)^-1 *: ((l *: b) *m (l *: b)^T) = T *m T^T.
  rewrite [(l *: b)^T]linearZ /= -scalemxAl -scalemxAr !scalerA.
  have -> : (l * l)^-1 * l * l = 1 by rewrite -mulrA mulVf // mulf_neq0 //; exact/eqP.
  by rewrite scale1r addrAC subrr add0r.
rewrite (IH T) // ; split; [|split=> //].
- by move=> i j H; rewrite /T !mxE; apply: L0; rewrite /= ltn_add2l.
- by move=> i; rewrite /T !mxE; exact: LD.
Qed.

(** ** Two by two matrices, for witnesses *)
Definition mx2 (a b c e : R) : 'M[R]_2 :=
  \matrix_(i, j) (if i == ord0 then (if j == ord0 then a else b) else (if j == ord0 then c else e)).
Definition cv2 (a b : R) : 'cV[R]_2 := \col_i (if i == ord0 then a else b).

Lemma mx2P (P : 'I_2 -> Prop) : P ord0 -> P (lift ord0 ord0) -> forall i, P i.
Proof.
move=> H0 H1 i; case: (unliftP ord0 i) => [j ->|->] //.
by rewrite (ord1 j).
Qed.
Lemma mulmx2 a b c e a' b' c' e' : mx2 a b c e *m mx2 a' b' c' e'
  = mx2 (a * a' + b * c')%R (a * b' + b * e')%R (c * a' + e * c')%R (c * b' + e * e')%R.
Proof.
apply/matrixP => i j; rewrite !mxE !big_ord_recl big_ord0 addr0 !mxE /=.
by move: i j; apply: mx2P; apply: mx2P.
Qed.
Lemma mulmx2c a b c e u v : mx2 a b c e *m cv2 u v = cv2 (a * u + b * v)%R (c * u + e * v)%R.
Proof.
apply/matrixP => i j; rewrite !mxE !big_ord_recl big_ord0 addr0 !mxE /=.
by move: i; apply: mx2P.
Qed.
Lemma tr_mx2 a b c e : (mx2 a b c e)^T = mx2 a c b e.
Proof. by apply/matrixP; apply: mx2P; apply: mx2P; rewrite !mxE. Qed.
Lemma mx2_1 : mx2 1 0 0 1 = 1%:M.
Proof. by apply/matrixP; apply: mx2P; apply: mx2P; rewrite !mxE. Qed.
Lemma dot_cv2 a b u v : dot (cv2 a b) (cv2 u v) = (a * u + b * v)%R.
Proof. by rewrite /dot !big_ord_recl big_ord0 addr0 !mxE. Qed.
Lemma mx2_congr a b c e a' b' c' e' : a = a' -> b = b' -> c = c' -> e = e' -> mx2 a b c e = mx2 a' b' c' e'.
Proof. by move=> -> -> -> ->. Qed.
Lemma invmx_uniq n (A B : 'M[R]_n) : A *m B = 1%:M -> invmx A = B.
Proof. by move=> H; have [U _] := mulmx1_unit H; rewrite -[LHS]mulmx1 -H mulKmx. Qed.
Lemma unit_of_mul n (A B : 'M[R]_n) : A *m B = 1%:M -> A \in unitmx.
Proof. by move=> H; have [] := mulmx1_unit H. Qed.
Lemma chol_mx2 a b c : Rlt 0 a -> Rlt 0 c ->
  chol (mx2 (a * a) (a * b) (a * b) (b * b + c * c)) = mx2 a 0 b c.
Proof.
move=> Ha Hc; apply: chol_unique; split; [|split].
- by apply: mx2P; apply: mx2P => //= _; rewrite !mxE.
- by apply: mx2P; rewrite !mxE.
- rewrite tr_mx2 mulmx2; apply: mx2_congr; toR; ring.
Qed.
Lemma chol11 (a : R) : Rlt 0 a -> chol (a%:M : 'M[R]_1) = (sqrt a)%:M.
Proof.
move=> Ha; apply: chol_unique; split; [|split].
- by move=> i j; rewrite !ord1.
- by move=> i; rewrite !ord1 mxE mulr1n; exact: sqrt_lt_R0.
- by rewrite tr_scalar_mx -scalar_mxM -[_ * _]/(Rmult _ _) sqrt_sqrt //; exact: Rlt_le.
Qed.
