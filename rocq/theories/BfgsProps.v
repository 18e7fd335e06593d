(** Properties C34, C35 and C36 of the BFGS square roots. *)
From Coq Require Import Reals Lra.
From mathcomp Require Import ssreflect ssrfun ssrbool eqtype ssrnat seq choice fintype bigop ssralg matrix.
From Verif Require Import XR RStruct BfgsModel BfgsSpec BfgsProofs.
Set Implicit Arguments.
Unset Strict Implicit.
Import GRing.Theory.
Local Open Scope ring_scope.

(** ** C34 *)
(** The two products are adjoint, for any stored vectors. *)
Theorem C34_adjoint d (ps qs : seq 'cV[R]_d) (D : idiag d) (z w : 'cV[R]_d) :
  \sum_i w i ord0 * sqrt_prod ps qs z D i ord0
  = \sum_i sqrt_transpose_prod ps qs w D i ord0 * z i ord0.
Proof. by rewrite -/(dot _ _) -/(dot _ _) sqrt_prodE sqrt_transpose_prodE dot_adj. Qed.
Print Assumptions C34_adjoint.

(** Both products are linear. *)
Theorem C34_linear d (ps qs : seq 'cV[R]_d) (D : idiag d) (a : R) (z w : 'cV[R]_d) :
  sqrt_prod ps qs (a *: z + w) D = a *: sqrt_prod ps qs z D + sqrt_prod ps qs w D
  /\ sqrt_transpose_prod ps qs (a *: z + w) D
     = a *: sqrt_transpose_prod ps qs z D + sqrt_transpose_prod ps qs w D.
Proof. by rewrite !sqrt_prodE !sqrt_transpose_prodE !mulmxDr -!scalemxAr. Qed.
Print Assumptions C34_linear.

(** Whatever the history, damping and flags: when [bfgs_sqrt_pqut] returns
    numbers, the two factors are inverse transposes and the two approximations
    are inverse to each other. *)
Theorem C34_inverse d (vals grads : seq 'cV[R]_d) (D : idiag d) r ub out :
  (forall i, dvec D i ord0 <> 0) ->
  bfgs_pqut vals grads D r ub = Some out ->
  forall z,
    [/\ sqrt_transpose_prod (map (@qp d) out) (map (@qq d) out)
          (sqrt_prod (map (@qu d) out) (map (@qt d) out) z D) (dinv D) = z,
        sqrt_transpose_prod (map (@qu d) out) (map (@qt d) out)
          (sqrt_prod (map (@qp d) out) (map (@qq d) out) z (dinv D)) D = z,
        hess_inv_prod out D (hess_prod out D z) = z &
        hess_prod out D (hess_inv_prod out D z) = z].
Proof.
move=> HD; rewrite pqut_scan' => /scan'_good G z.
have [H1 H2] := inv_hess z HD G.
split=> //; rewrite sqrt_transpose_prodE sqrt_prodE !zip_map2 mulmxA.
  by have := PtC HD G; rewrite /Pmat /Cmat /pmat /umat => ->; rewrite mul1mx.
by have := CtP HD G; rewrite /Pmat /Cmat /pmat /umat => ->; rewrite mul1mx.
Qed.
Print Assumptions C34_inverse.

(** With any finite damping the result is always numbers. *)
Theorem C34_no_nan d (vals grads : seq 'cV[R]_d) (D : idiag d) (r : R) ub :
  exists out, bfgs_pqut vals grads D (Some r) ub = Some out
              /\ size out = minn (minn (size vals).-1 (size grads).-1) (size ub).
Proof.
have E : forall (l : seq 'cV[R]_d), size (diffs l) = (size l).-1.
  move=> l; rewrite /diffs size_map size_zip size_behead; case: l => //= a l; exact/minn_idPr.
rewrite pqut_scan'; case H: (scan' _ _ _ _) => [out|].
  exists out; split=> //; rewrite (scan'_size H) /bfgs_pairs !size_zip size_map size_zip !E.
  by rewrite minnA minnn.
by case: (scan'_total H).
Qed.
Print Assumptions C34_no_nan.

(** one-dimensional vectors, for the examples *)
Definition v1 (x : R) : 'cV[R]_1 := const_mx x.
Lemma dot_v1 x y : dot (v1 x) (v1 y) = x * y.
Proof. by rewrite /dot big_ord_recl big_ord0 addr0 !mxE. Qed.
Lemma v1_sub x y : v1 x - v1 y = v1 (x - y)%R.
Proof. by apply/matrixP => i j; rewrite !mxE. Qed.

(** With the default damping (minus infinity) a pair of negative curvature is
    used and its square roots are NaN: the full claim is false of the code. *)
Theorem C34_negative_curvature_refuted :
  exists vals grads : seq 'cV[R]_1, bfgs_pqut vals grads (IScalar 1 1) None [:: true] = None.
Proof.
exists [:: v1 0; v1 1], [:: v1 0; v1 (-1)]; rewrite pqut_scan' /bfgs_pairs /=.
set l := lambd _ _ _ _.
have El : l = 0.
  by rewrite /l /lambd /= /rat; case: (Rltb _ _).
have Ed : damp (IScalar 1 1) l (v1 1 - v1 0) (v1 (-1) - v1 0) = v1 (-1).
  by rewrite El; apply/matrixP => i j; rewrite !mxE; toR; ring.
rewrite Ed v1_sub.
have Eb : Bmat [::] (IScalar 1 1) *m v1 (1 - 0) = v1 1.
  rewrite Bmat_nil -mulmxA -!dmul_mx; apply/matrixP => i j; rewrite !mxE; toR; ring.
rewrite Eb !dot_v1.
have E1 : ((1 - 0) * -1)%R = (-1)%R :> R by rewrite subr0 mul1r.
have E2 : ((1 - 0) * 1)%R = 1%R :> R by rewrite subr0 mul1r.
rewrite E1 E2 /used /= andbT.
have -> : Rltb 1e-10 (Rmin (Rabs 1) (Rabs (-1)%R)).
  apply/Rltb_true; rewrite Rabs_R1 Rabs_Ropp Rabs_R1 /Rmin; case: (Rle_dec _ _) => _; toR; lra.
have -> // : Rltb ((-1)%R / 1) 0.
apply/Rltb_true; toR; lra.
Qed.
Print Assumptions C34_negative_curvature_refuted.

(** ** C35 *)
(** The pairs handed to the scan are the successive differences, with the
    gradients damped by one common multiple of the initial Hessian; after that
    every pair that is not tiny has curvature at least [r] times its initial
    curvature, and no more damping is added than needed for that. *)
Theorem C35_damping d (vals grads : seq 'cV[R]_d) (D : idiag d) (r : R) ub :
  size grads = size vals -> size ub = (size vals).-1 ->
  exists l : R, [/\ Rle 0 l,
    size (bfgs_pairs vals grads D (Some r) ub) = (size vals).-1,
    (forall k, (k.+1 < size vals)%N ->
      exists s y, [/\ nth (0, 0, false) (bfgs_pairs vals grads D (Some r) ub) k = (s, y, nth false ub k),
        s = nth 0 vals k.+1 - nth 0 vals k,
        y = nth 0 grads k.+1 - nth 0 grads k + l *: \col_i (dvec D i ord0 ^+ 2 * s i ord0) &
        Rle 1e-10 (\sum_i (s i ord0 * dvec D i ord0) ^+ 2) ->
        Rle (Rmult r (\sum_i (s i ord0 * dvec D i ord0) ^+ 2)) (\sum_i s i ord0 * y i ord0)]) &
    l = 0 \/ exists k, (k.+1 < size vals)%N /\
      let sy := (nth (0, 0, false) (bfgs_pairs vals grads D (Some r) ub) k).1 in
      \sum_i sy.1 i ord0 * sy.2 i ord0 = r * \sum_i (sy.1 i ord0 * dvec D i ord0) ^+ 2].
Proof.
move=> Hg Hu; set l := lambd D (Some r) (diffs vals) (diffs grads).
have [H0 HB HA] := lambd_spec D r (diffs vals) (diffs grads).
rewrite -/l in H0 HB HA.
have E : forall (q : seq 'cV[R]_d), size (diffs q) = (size q).-1.
  move=> q; rewrite /diffs size_map size_zip size_behead; case: q => //= a q; exact/minn_idPr.
have En : forall (q : seq 'cV[R]_d) k, (k.+1 < size q)%N -> nth 0 (diffs q) k = nth 0 q k.+1 - nth 0 q k.
  move=> q k Hk; rewrite /diffs (nth_map (0, 0)); last first.
    rewrite size_zip size_behead; move: Hk; case: q => //= a q Hk; by rewrite (minn_idPr _).
  rewrite nth_zip_cond size_zip size_behead; move: Hk; case: q => //= a q Hk.
  by rewrite (minn_idPr _) // ltnS in Hk *; rewrite Hk /=.
have Ez : size (zip (diffs vals) (diffs grads)) = (size vals).-1.
  by rewrite size_zip !E Hg minnn.
have Esz : size (bfgs_pairs vals grads D (Some r) ub) = (size vals).-1.
  by rewrite /bfgs_pairs size_zip size_zip E size_map Ez Hu !minnn.
have Hk' : forall k, (k.+1 < size vals)%N -> (k < (size vals).-1)%N by move=> k; case: (size vals).
have Enth : forall k, (k.+1 < size vals)%N ->
  nth (0, 0, false) (bfgs_pairs vals grads D (Some r) ub) k
  = (nth 0 (diffs vals) k, damp D l (nth 0 (diffs vals) k) (nth 0 (diffs grads) k), nth false ub k).
  move=> k /Hk' Hk; rewrite /bfgs_pairs -/l.
  move: Ez (E vals) Hu Hk; rewrite -Hg -(E grads); rewrite -/l; clearbody l; move: {H0 HB HA} l (diffs vals) (diffs grads) => l' ss ys Ez Es Hub Hk.
  rewrite nth_zip; last by rewrite size_zip size_map Ez Es minnn.
  rewrite nth_zip; last by rewrite size_map Ez.
  by rewrite (nth_map (0, 0)) ?Ez // nth_zip.
have Hin : forall k, (k.+1 < size vals)%N ->
  List.In (nth 0 (diffs vals) k, nth 0 (diffs grads) k) (zip (diffs vals) (diffs grads)).
  move=> k Hk; rewrite -[X in List.In X _](nth_zip 0 0) ?E ?Hg //.
  have := Hk' _ Hk; rewrite -Ez; elim: (zip _ _) k {Hk} => [//|x q IH] [|k] /=; first by left.
  by rewrite ltnS => /IH; right.
exists l; split=> //.
  move=> k Hk; rewrite Enth //; eexists; eexists; split; first reflexivity.
  - by rewrite En.
  - rewrite /damp En ?Hg //; congr (_ + _); apply/matrixP => i j; rewrite !mxE.
    by rewrite mulrA.
  - by move=> Hc; exact: (HB _ (Hin _ Hk) Hc).
case: HA => [->|[sy [Hsy Hc He]]]; [by left|right].
have [k [Hk Ek]] : exists k, (k < (size vals).-1)%N /\ nth (0, 0) (zip (diffs vals) (diffs grads)) k = sy.
  rewrite -Ez; move: Hsy; elim: (zip _ _) => [//|x q IH] /= [->|/IH [k [H1 H2]]]; [by exists 0%N|].
  by exists k.+1.
have Hk1 : (k.+1 < size vals)%N by move: Hk; case: (size vals).
exists k; split=> //=; rewrite Enth //=.
move: Ek; rewrite nth_zip ?E ?Hg // => Ek; rewrite -Ek /= in He; exact: He.
Qed.
Print Assumptions C35_damping.

(** The product form computes the textbook dense recursion from the squared
    initial diagonal; the result is symmetric positive semi-definite, and
    positive definite with the stated inverse when the diagonal is non-zero. *)
Theorem C35_textbook d (vals grads : seq 'cV[R]_d) (D : idiag d) r ub out :
  bfgs_pqut vals grads D r ub = Some out ->
  exists B : 'M[R]_d,
    [/\ bfgs_dense (diag_mx (\row_i dvec D i ord0 ^+ 2)) (bfgs_pairs vals grads D r ub) B,
        forall z, hess_prod out D z = B *m z, psd B &
        (forall i, dvec D i ord0 <> 0) -> posdef B /\ forall z, hess_inv_prod out D z = invmx B *m z].
Proof.
rewrite pqut_scan' => H; have G := scan'_good H.
have ED : diag_mx (\row_i dvec D i ord0 ^+ 2) = Bmat [::] D.
  rewrite Bmat_nil /dg; apply/matrixP => i j; rewrite mul_diag_mx !mxE -mulrnAr.
  by case: eqP => [->|]; rewrite ?mulr1n ?mulr0n ?expr2 ?mulr0.
exists (Bmat out D); split.
- by rewrite ED; have := scan'_dense H.
- by move=> z; rewrite hess_prodE.
- by split; [exact: Bmat_sym | move=> z; rewrite bilE; exact: Bmat_psd].
move=> HD; split.
  by split; [exact: Bmat_sym | move=> z Hz; rewrite bilE; exact: Bmat_pd].
move=> z; have [H1 H2] := inv_hess z HD G.
have U : Bmat out D \in unitmx.
  have : Bmat out D *m (Pmat out D *m (Pmat out D)^T) = 1%:M.
    rewrite /Bmat -mulmxA [(Cmat out D)^T *m _]mulmxA (CtP HD G) mul1mx; exact: CPt.
  by case/mulmx1_unit.
by rewrite -{2}H2 hess_prodE mulKmx.
Qed.
Print Assumptions C35_textbook.

(** The secant equation holds right after each used pair. *)
Theorem C35_secant d (vals grads : seq 'cV[R]_d) (D : idiag d) r ub out k s y b :
  bfgs_pqut vals grads D r ub = Some out ->
  (k < size (bfgs_pairs vals grads D r ub))%N ->
  nth (0, 0, false) (bfgs_pairs vals grads D r ub) k = (s, y, b) ->
  b -> Rlt 1e-10 (\sum_i s i ord0 * y i ord0) ->
  Rlt 1e-10 (\sum_i s i ord0 * hess_prod (take k out) D s i ord0) ->
  hess_prod (take k.+1 out) D s = y.
Proof.
rewrite pqut_scan' => H Hk En Hb Hy HB; rewrite hess_prodE.
apply: (scan'_secant H Hk En); split=> //; split; first by rewrite bil1.
by rewrite bilE; rewrite hess_prodE in HB.
Qed.
Print Assumptions C35_secant.

(** Example: one pair in one dimension, from (0, 0) to (1, 2); the Hessian
    approximation becomes 2. *)
Example C35_example :
  exists out, bfgs_pqut [:: v1 0; v1 1] [:: v1 0; v1 2%:R] (IScalar 1 1) (Some 1) [:: true] = Some out
    /\ hess_prod out (IScalar 1 1) (v1 1) = v1 2%:R.
Proof.
have [out [H Hs]] := C34_no_nan [:: v1 0; v1 1] [:: v1 0; v1 2%:R] (IScalar 1 1) 1 [:: true].
exists out; split=> //.
have Esz : size out = 1%N by [].
have -> : out = take 1 out by rewrite take_oversize // Esz.
have Ep : bfgs_pairs [:: v1 0; v1 1] [:: v1 0; v1 2%:R] (IScalar 1 1) (Some 1) [:: true]
  = [:: (v1 1, v1 2%:R, true)].
  rewrite /bfgs_pairs /= v1_sub R0E subr0.
  have Ec : init_curv (IScalar 1 1) (v1 1) = 1.
    by rewrite /init_curv big_ord_recl big_ord0 addr0 !mxE mulr1 expr1n.
  have E2 : v1 2%:R - v1 0 = v1 2%:R by rewrite v1_sub R0E subr0.
  have El : lambd (IScalar 1 1) (Some 1) [:: v1 1] [:: v1 2%:R - v1 0] = 0.
    rewrite E2 /lambd /= /rat Ec dot_v1.
    have -> : Rltb 1 1e-10 = false by apply/Rltb_false; lra.
    rewrite /= /xmax2 /=.
    have -> // : Rleb 0 (Rplus (Rdiv (- (1 * 2%:R)%R) 1) 1) = false.
    by apply/Rleb_false; rewrite mulr2n; toR; lra.
  have -> : diffs [:: v1 0; v1 1] = [:: v1 1] by rewrite /diffs /= v1_sub R0E subr0.
  rewrite [diffs _]/= El; congr [:: (_, _, _)]; apply/matrixP => i j; rewrite !mxE mul0r mul0r addr0.
  exact: subr0.
have HS := @C35_secant _ _ _ _ _ _ _ 0%N (v1 1) (v1 2%:R) true H.
rewrite Ep in HS; apply: HS => //.
  by rewrite -/(dot _ _) dot_v1 mulr2n; toR; lra.
rewrite -/(dot _ _) take0 hess_prodE /=.
rewrite -[Cmat _ _ *m _]/(Bmat [::] (IScalar 1 1)) Bmat_nil -mulmxA -!dmul_mx.
have -> : dmul (dvec (IScalar 1 1)) (dmul (dvec (IScalar 1 1)) (v1 1)) = v1 1.
  by apply/matrixP => i j; rewrite !mxE; toR; ring.
by rewrite dot_v1; toR; lra.
Qed.

(** ** C36 *)
(** For a vector diagonal the returned number is the determinant of the matrix
    applied by [bfgs_sqrt_prod]. *)
Theorem C36_det_partial d (ps qs : seq 'cV[R]_d) (v : 'cV[R]_d) (M : 'M[R]_d) :
  (forall z, sqrt_prod ps qs z (IVector v) = M *m z) ->
  sqrt_det ps qs (IVector v) = \det M
  /\ (\det M <> 0 -> sqrt_log_abs_det ps qs (IVector v) = ln (Rabs (\det M))).
Proof.
move=> H.
have E : M = prodmx (zip ps qs) *m dg (IVector v).
  apply/matrixP => i j; have := H (delta_mx j ord0); rewrite sqrt_prodE => /matrixP /(_ i ord0).
  by rewrite -!colE ![col _ _ _ _]mxE.
rewrite E det_mulmx det_prodmx det_dg /sqrt_det /sqrt_log_abs_det mulrC; split=> // /eqP.
rewrite mulf_eq0 negb_or => /andP [/eqP H1 /eqP H2].
by rewrite Rabs_mult ln_mult; [rewrite !ln_abs_prod // RplusE addrC | exact: Rabs_pos_lt..].
Qed.
Print Assumptions C36_det_partial.

(** For a scalar diagonal it is short of [d - 1] factors. *)
Theorem C36_scalar_factor_partial d (ps qs : seq 'cV[R]_d.+1) (c : R) (M : 'M[R]_d.+1) :
  (forall z, sqrt_prod ps qs z (IScalar _ c) = M *m z) ->
  \det M = c ^+ d * sqrt_det ps qs (IScalar _ c).
Proof.
move=> H.
have E : M = prodmx (zip ps qs) *m dg (IScalar _ c).
  apply/matrixP => i j; have := H (delta_mx j ord0); rewrite sqrt_prodE => /matrixP /(_ i ord0).
  by rewrite -!colE ![col _ _ _ _]mxE.
rewrite E det_mulmx det_prodmx det_dg /sqrt_det mulrC mulrA -exprSr; congr (_ * _).
by rewrite (eq_bigr (fun=> c)) ?prodr_const ?card_ord // => i _; rewrite mxE.
Qed.
Print Assumptions C36_scalar_factor_partial.

Theorem C36_scalar_refuted :
  exists (c : R) (M : 'M[R]_2), (forall z, sqrt_prod [::] [::] z (IScalar _ c) = M *m z)
    /\ sqrt_det [::] [::] (IScalar 2 c) <> \det M.
Proof.
exists 2%:R, (2%:R)%:M; split.
  move=> z; rewrite /sqrt_prod /= mul_scalar_mx; apply/matrixP => i j; by rewrite !mxE ord1.
rewrite det_scalar /sqrt_det big_nil mulr2n; toR => H.
lra.
Qed.
Print Assumptions C36_scalar_refuted.

(** Example: in two dimensions the factor [I - e1 (2 e1)'] with unit diagonal
    has determinant -1. *)
Example C36_example : sqrt_det [:: delta_mx ord0 ord0 : 'cV[R]_2] [:: 2%:R *: delta_mx ord0 ord0] (IVector (const_mx 1)) = -1.
Proof.
rewrite /sqrt_det /= big_seq1 big1 ?mul1r; last by move=> i _; rewrite mxE.
rewrite dotZr /dot big_ord_recl big_ord_recl big_ord0 !mxE /= ?mulr0n ?mulr1n mulr2n; toR; ring.
Qed.
