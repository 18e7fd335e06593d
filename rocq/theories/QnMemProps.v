(** Property C100: the memory of the quasi-Newton sampler. *)
From Coq Require Import Reals Lra.
From mathcomp Require Import ssreflect ssrfun ssrbool eqtype ssrnat seq path choice fintype bigop ssralg matrix.
From Verif Require Import XR RStruct BfgsModel BfgsSpec BfgsProofs BfgsProps QnMemModel.
Set Implicit Arguments.
Unset Strict Implicit.
Import GRing.Theory.
Local Open Scope ring_scope.

(** * The window *)
(** The memory always holds the last [m] of the visited states, oldest first,
    with unfilled rows in front while fewer than [m] have been visited. *)
Theorem C100_window d m (xs : seq (qrow d)) : (0 < m)%N ->
  mem_run m xs = drop (size xs) (nseq m (zrow d) ++ xs).
Proof.
move=> Hm; rewrite /mem_run.
have -> : mem_startup d m = nseq m (zrow d).
  by case: m Hm => // m _; rewrite /mem_startup /mem_push /=; elim: m => //= m ->.
elim/last_ind: xs => [|xs x IH]; first by rewrite /= drop0 cats0.
rewrite -cats1 foldl_cat IH /= /mem_push size_cat addn1 catA cats1.
rewrite -drop1 drop_drop add1n drop_rcons // size_cat size_nseq -addn1 addnC leq_add2r.
exact: Hm.
Qed.
Print Assumptions C100_window.

(** * The flags *)
(** The pair of rows [i] and [i + 1] is marked for use exactly when both are
    visited states. *)
Theorem C100_flags d m (xs : seq (qrow d)) i : (0 < m)%N ->
  List.Forall (fun r => xltb NInf (qr_prior r)) xs ->
  (i < m.-1)%N ->
  size (mem_flags (mem_run m xs)) = m.-1 /\
  nth false (mem_flags (mem_run m xs)) i = (m <= i + size xs)%N.
Proof.
move=> Hm Hx Hi.
have Hs : size (mem_run m xs) = m by rewrite C100_window // size_drop size_cat size_nseq addnK.
split; first by rewrite /mem_flags size_map size_take Hs; case: m Hm {Hi Hs} => //= m; rewrite ltnS leqnn.
rewrite /mem_flags (nth_map (zrow d)); last first.
  by rewrite size_take Hs; case: m Hm Hi {Hs} => //= m; rewrite ltnS leqnn.
rewrite nth_take ?Hs // C100_window // nth_drop nth_cat size_nseq [(i + _)%N]addnC.
case: ltnP => H; first by rewrite nth_nseq H.
have {}H : (size xs + i - m < size xs)%N.
  rewrite ltn_subLR // addnC ltn_add2r; move: Hi Hm; case: m {Hs} H => //= m _.
  by move=> H _; apply: ltnW.
elim: xs (size xs + i - m)%N Hx H {Hs} => [//|x xs IH] [|k] Hx /=; inversion Hx => //.
by rewrite ltnS; apply: IH.
Qed.
Print Assumptions C100_flags.

(** * A full memory *)
(** Once [m] states have been visited the approximation is that of the last [m]
    states alone, with gradients at the temperature of the call, and every pair
    marked for use. *)
Theorem C100_full_partial d m T (D : idiag d) r (xs : seq (qrow d)) : (0 < m <= size xs)%N ->
  List.Forall (fun r => xltb NInf (qr_prior r)) xs ->
  mem_pqut false T D r (mem_run m xs)
  = let last := drop (size xs - m) xs in
    bfgs_pqut [seq qr_value x | x <- last] [seq qr_gprior x + T *: qr_glik x | x <- last] D (Some r) (nseq m.-1 true).
Proof.
case/andP=> Hm Hk Hx; rewrite /mem_pqut /mem_order.
have Ef : mem_flags (mem_run m xs) = nseq m.-1 true.
  have Esz : size (mem_flags (mem_run m xs)) = m.-1.
    rewrite /mem_flags size_map size_take C100_window // size_drop size_cat size_nseq addnK.
    by case: m Hm {Hk} => //= m; rewrite ltnS leqnn.
  apply: (@eq_from_nth _ false); rewrite Esz ?size_nseq // => i Hi.
  have [_ ->] := C100_flags Hm Hx Hi; rewrite nth_nseq Hi; exact: (leq_trans Hk (leq_addl _ _)).
rewrite Ef C100_window // drop_cat size_nseq ltnNge Hk /=; by [].
Qed.
Print Assumptions C100_full_partial.

(** * An unfilled memory *)
Section Fill.
Variable d : nat.
Implicit Types (D : idiag d) (s y : 'cV[R]_d).

Lemma scan'_ext D r done done' pairs : Bmat done D = Bmat done' D ->
  scan' D r done pairs = scan' D r done' pairs.
Proof.
elim: pairs done done' => [//|[[s y] ub] pairs IH] done done' E /=; rewrite E.
case: (_ && _) => //; congr omap; apply: IH.
by rewrite !Bmat_rcons E.
Qed.

Lemma scan'_zeros D r j done pairs :
  scan' D r done (nseq j (0, 0, false) ++ pairs) = omap (cat (nseq j (zquad d))) (scan' D r done pairs).
Proof.
elim: j done => [|j IH] done /=; first by case: (scan' _ _ _ _).
rewrite /used andbF /= IH (@scan'_ext D r (rcons done (zquad d)) done) ?Bmat_zero //.
by case: (scan' _ _ _ _).
Qed.

Lemma hess_zeros D j out z : hess_prod (nseq j (zquad d) ++ out) D z = hess_prod out D z
  /\ hess_inv_prod (nseq j (zquad d) ++ out) D z = hess_inv_prod out D z.
Proof.
rewrite !hess_prodE !hess_inv_prodE /Cmat /Pmat /umat /pmat !map_cat !map_nseq !prodmx_cat.
by rewrite !(@prodmx_zeros _ (nseq j _)) ?mulmx1 //; apply/allP => pq /nseqP [-> _] /=.
Qed.

Lemma diffs_zeros j (l : seq 'cV[R]_d) : diffs (nseq j.+1 0 ++ l) = nseq j 0 ++ diffs (0 :: l).
Proof.
elim: j => [//|j IH]; rewrite -[nseq j.+2 _]/(0 :: nseq j.+1 0) cat_cons /diffs /= subr0.
by rewrite -/(diffs (nseq j.+1 0 ++ l)) in IH *; congr cons.
Qed.

Lemma xmaxl_ninf j l : xmaxl (nseq j NInf ++ l) = xmaxl l.
Proof. by elim: j => //= j ->; rewrite /xmax2; case: (xmaxl l). Qed.

Lemma rat00 D : rat D 0 0 = NInf.
Proof.
rewrite /rat /init_curv big1; last by move=> i _; rewrite mxE mul0r expr0n.
by have -> : Rltb 0%R 1e-10 by apply/Rltb_true; toR; lra.
Qed.

Lemma damp00 D l : damp D l 0 0 = 0.
Proof. by apply/matrixP => i i'; rewrite !mxE mulr0 addr0. Qed.

Lemma pairs_zeros D r j (vs gs : seq 'cV[R]_d) ub : size gs = size vs ->
  bfgs_pairs (nseq j.+1 0 ++ vs) (nseq j.+1 0 ++ gs) D r (nseq j false ++ ub)
  = nseq j (0, 0, false) ++ bfgs_pairs (0 :: vs) (0 :: gs) D r ub.
Proof.
move=> E; rewrite /bfgs_pairs !diffs_zeros.
have -> : lambd D r (nseq j 0 ++ diffs (0 :: vs)) (nseq j 0 ++ diffs (0 :: gs)) = lambd D r (diffs (0 :: vs)) (diffs (0 :: gs)).
  by rewrite /lambd zip_cat // zip_zeros map_cat map_nseq rat00 xmaxl_ninf.
set l := lambd _ _ _ _.
rewrite (@zip_cat _ _ (nseq j 0)) // zip_zeros map_cat map_nseq.
rewrite /= damp00.
by rewrite (@zip_cat _ _ (nseq j 0)) // zip_zeros (@zip_cat _ _ (nseq j (0, 0))) ?size_nseq // zip_zeros.
Qed.

Lemma skip_div (c a r : R) : Rle 1e-10 c -> Rle (Rmult r c) a -> Rle (Rplus (Rdiv (- a) c) r) 0.
Proof.
move=> Hc Ha; have -> : Rplus (Rdiv (- a) c) r = Rmult (Rplus (Rmult r c) (Ropp a)) (Rinv c).
  by rewrite /Rdiv; toR; field; lra.
have H : Rlt 0 (Rinv c) by apply: Rinv_0_lt_compat; lra.
have H' : Rle (Rplus (Rmult r c) (Ropp a)) 0 by lra.
have := Rmult_le_compat_r _ _ _ (Rlt_le _ _ H) H'; by rewrite Rmult_0_l.
Qed.
Lemma skip_max (x r : R) (M : xr) : notnan M -> Rle (Rplus x r) 0 ->
  match xmax2 (Fin 0) (xadd (xmax2 (Fin x) M) (Fin r)) with Fin u => u | _ => 0 end
  = match xmax2 (Fin 0) (xadd M (Fin r)) with Fin u => u | _ => 0 end.
Proof.
have Z : forall v, Rle v 0 -> (if Rleb 0 v then Fin v else Fin 0) = Fin 0.
  move=> v Hv; case E: (Rleb 0 v) => //; move/Rleb_true: E => E; congr Fin; exact: Rle_antisym.
case: M => [q| | |] // _ Hx; rewrite /xmax2 /=.
  case: (Rleb x q) (proj1 (Rleb_false x q)) => [//|/(_ erefl) Hq] /=.
  by rewrite !Z //; lra.
by rewrite Z.
Qed.
Lemma lambd_skip D r s0 y0 ss ys :
  (Rle 1e-10 (init_curv D s0) -> Rle (Rmult r (init_curv D s0)) (dot s0 y0)) ->
  lambd D (Some r) (s0 :: ss) (y0 :: ys) = lambd D (Some r) ss ys.
Proof.
move=> H; rewrite /lambd.
rewrite -[xmaxl [seq _ | sy <- zip (s0 :: ss) _]]/(xmax2 (rat D s0 y0) (xmaxl [seq rat D sy.1 sy.2 | sy <- zip ss ys])).
set M := xmaxl _.
have HM : notnan M.
  have F : List.Forall notnan [seq rat D sy.1 sy.2 | sy <- zip ss ys].
    by apply/List.Forall_forall => x /List.in_map_iff [sy [<- _]]; exact: rat_notnan.
  by case: (xmaxl_spec F).
clearbody M.
rewrite {1}/rat; case: (Rltb _ _) (proj1 (Rltb_false (init_curv D s0) 1e-10)) => [_|/(_ erefl) Hc].
  by have -> : xmax2 NInf M = M by case: M HM.
rewrite skip_max //; have := H Hc; move: (init_curv D s0) (dot s0 y0) Hc => c a Hc Ha.
exact: skip_div.
Qed.

Lemma flags_filling m (xs : seq (qrow d)) : (0 < size xs < m)%N ->
  List.Forall (fun r => xltb NInf (qr_prior r)) xs ->
  mem_flags (mem_run m xs) = nseq (m - size xs).-1 false ++ false :: nseq (size xs).-1 true.
Proof.
case/andP=> Hk Hkm Hx; have Hm : (0 < m)%N by apply: leq_trans Hkm.
have Esz : size (mem_flags (mem_run m xs)) = m.-1.
  rewrite /mem_flags size_map size_take C100_window // size_drop size_cat size_nseq addnK.
  by case: m Hm {Hkm} => //= m; rewrite ltnS leqnn.
have Ej : ((m - size xs).-1 + (size xs).-1.+1 = m.-1)%N.
  rewrite (prednK Hk) -subn1 -subnDA addn1; move: Hkm; case: m {Hm Esz} => // m; rewrite ltnS subSS /=.
  exact: subnK.
apply: (@eq_from_nth _ false); first by rewrite Esz size_cat /= !size_nseq.
move=> i; rewrite Esz => Hi; have [_ ->] := C100_flags Hm Hx Hi.
rewrite nth_cat size_nseq; case: ltnP => H.
  rewrite nth_nseq H; apply/negbTE; rewrite -ltnNge.
  have : (i < m - size xs)%N by apply: leq_trans H (leq_pred _).
  by rewrite ltn_subRL addnC.
have Hms : (0 < m - size xs)%N by rewrite subn_gt0.
case E: (i - _)%N => [|k] /=.
  have : (i <= (m - size xs).-1)%N by rewrite -subn_eq0 E.
  rewrite -ltnS (prednK Hms) ltn_subRL addnC => H'; apply/negbTE; by rewrite -ltnNge.
have Ei : (i = k.+1 + (m - size xs).-1)%N by rewrite -E subnK.
rewrite nth_nseq.
have -> : (k < (size xs).-1)%N.
  by move: Hi; rewrite Ei -Ej addnC ltn_add2l ltnS.
rewrite Ei addSn -addnS (prednK Hms) -addnA subnK; first exact: leq_addl.
exact: ltnW.
Qed.
End Fill.

(** Before that, the approximation is the one of a history that starts at the
    origin with gradient zero: the pair from the origin to the first state is
    not used for an update, but takes part in the choice of the damping. *)
Theorem C100_filling_partial d m T (D : idiag d) r (xs : seq (qrow d)) : (0 < size xs < m)%N ->
  List.Forall (fun r => xltb NInf (qr_prior r)) xs ->
  let vals := [seq qr_value x | x <- xs] in
  let grads := [seq qr_gprior x + T *: qr_glik x | x <- xs] in
  exists out out', [/\ mem_pqut false T D r (mem_run m xs) = Some out,
    bfgs_pqut (0 :: vals) (0 :: grads) D (Some r) (false :: nseq (size xs).-1 true) = Some out' &
    forall z, hess_prod out D z = hess_prod out' D z /\ hess_inv_prod out D z = hess_inv_prod out' D z].
Proof.
move=> Hkm Hx vals grads; have /andP [Hk Hkm'] := Hkm.
have Hm : (0 < m)%N by apply: leq_trans Hkm'.
rewrite /mem_pqut /mem_order flags_filling // C100_window // drop_cat size_nseq Hkm'.
have Ej : (m - size xs)%N = (m - size xs).-1.+1 by rewrite prednK // subn_gt0.
have -> : drop (size xs) (nseq m (zrow d)) = nseq (m - size xs) (zrow d) by rewrite drop_nseq.
set j := (m - size xs).-1 in Ej *; rewrite {}Ej !map_cat !map_nseq.
have -> : qr_value (zrow d) = 0 by [].
have -> : row_grad T (zrow d) = 0 by rewrite /row_grad /= scaler0 addr0.
rewrite !pqut_scan' pairs_zeros ?size_map // scan'_zeros.
rewrite -[map (row_grad T) xs]/grads -/vals.
case E: (scan' _ _ _ _) => [out'|]; last by case: (scan'_total E).
exists (nseq j (zquad d) ++ out'), out'; split=> // z; exact: hess_zeros.
Qed.
Print Assumptions C100_filling_partial.

(** When the first state already satisfies the curvature condition against the
    origin, this is exactly the approximation of the visited states. *)
Theorem C100_filling_exact_partial d m T (D : idiag d) r (x : qrow d) (xs : seq (qrow d)) : ((size xs).+1 < m)%N ->
  List.Forall (fun r => xltb NInf (qr_prior r)) (x :: xs) ->
  let curv := \sum_i (qr_value x i ord0 * dvec D i ord0) ^+ 2 in
  let g := qr_gprior x + T *: qr_glik x in
  (Rle 1e-10 curv -> Rle (Rmult r curv) (\sum_i qr_value x i ord0 * g i ord0)) ->
  let vals := [seq qr_value x | x <- x :: xs] in
  let grads := [seq qr_gprior x + T *: qr_glik x | x <- x :: xs] in
  exists out out', [/\ mem_pqut false T D r (mem_run m (x :: xs)) = Some out,
    bfgs_pqut vals grads D (Some r) (nseq (size xs) true) = Some out' &
    forall z, hess_prod out D z = hess_prod out' D z /\ hess_inv_prod out D z = hess_inv_prod out' D z].
Proof.
move=> Hm Hx curv g Hc vals grads.
have [out [out1 [E1 E2 E3]]] := @C100_filling_partial d m T D r (x :: xs) Hm Hx.
exists out.
move: E2; rewrite -/vals -/grads pqut_scan'.
have -> : bfgs_pairs (0 :: vals) (0 :: grads) D (Some r) (false :: nseq (size (x :: xs)).-1 true)
  = (qr_value x, damp D (lambd D (Some r) (diffs vals) (diffs grads)) (qr_value x) g, false)
    :: bfgs_pairs vals grads D (Some r) (nseq (size xs) true).
  rewrite /bfgs_pairs.
  have -> : diffs (0 :: vals) = qr_value x :: diffs vals by rewrite {1}/diffs /= subr0.
  have -> : diffs (0 :: grads) = g :: diffs grads by rewrite {1}/diffs /= subr0.
  by rewrite lambd_skip.
case/scan'_step=> Q [l [Eo Hl [[[] //]|[_ [EQ EB]]]]]; rewrite {}Eo in E3.
exists l; split=> //; first by rewrite pqut_scan' -Hl; apply: scan'_ext; rewrite EB.
by move=> z; have [-> ->] := E3 z; rewrite EQ; exact: (@hess_zeros d D 1).
Qed.
Print Assumptions C100_filling_exact_partial.

(** * The spurious pair *)
(** One-dimensional rows with no likelihood *)
Definition row1 (x g : R) : qrow 1 := QRow (v1 x) (Fin 0) (v1 g) (Fin 0) (v1 0).

Lemma hess1_nil z : hess_prod [::] (IScalar 1 1) (v1 z) = v1 z.
Proof.
rewrite hess_prodE -[Cmat _ _ *m _]/(Bmat [::] (IScalar 1 1)) Bmat_nil -mulmxA -!dmul_mx.
by apply/matrixP => i j; rewrite !mxE; toR; ring.
Qed.
Lemma curv1 x : init_curv (IScalar 1 1) (v1 x) = Rmult x x.
Proof. by rewrite /init_curv big_ord_recl big_ord0 addr0 !mxE mulr1 expr2. Qed.
Lemma damp1 l s y : damp (IScalar 1 1) l (v1 s) (v1 y) = v1 (Rplus y (Rmult l s)).
Proof. by apply/matrixP => i j; rewrite !mxE expr1n mulr1. Qed.
Lemma rat1 s y : Rle 1e-10 (Rmult s s) -> rat (IScalar 1 1) (v1 s) (v1 y) = Fin (Rdiv (Ropp (Rmult s y)) (Rmult s s)).
Proof.
move=> H; rewrite /rat curv1 dot_v1.
by have -> : Rltb (Rmult s s) 1e-10 = false by apply/Rltb_false.
Qed.

Lemma v1_subR x y : v1 x - v1 y = v1 (Rminus x y). Proof. exact: v1_sub. Qed.
Lemma last1 r pre y out : all (fun p => ~~ p.2) pre -> Rlt 1e-10 y ->
  scan' (IScalar 1 1) r [::] (rcons pre (v1 1, v1 y, true)) = Some out ->
  hess_prod out (IScalar 1 1) (v1 1) = v1 y.
Proof.
move=> Hp Hy; rewrite hess_prodE -[Cmat _ _ *m _]/(Bmat ([::] ++ out) (IScalar 1 1)).
have : Bmat [::] (IScalar 1 1) *m v1 1 = v1 1 by rewrite -[RHS]hess1_nil hess_prodE.
elim: pre [::] out Hp => [|[[s0 y0] b0] pre IH] done out; rewrite ?rcons_cons.
  move=> _ HB; rewrite -[rcons _ _]/[:: (v1 1, v1 y, true)] => E.
  have := scan'_secant E (ltn0Sn 0) erefl.
  have : out = take 1 out by have := scan'_size E; case: out {E} => [|a []].
  move=> Et; rewrite -Et take0 cats0; apply; split=> //.
  by rewrite bil1 bilE HB !dot_v1; split; toR; lra.
case/andP=> /= Hb Hp HB /scan'_step [Q [l [-> Hl [[[Hb' _] _]|[_ [_ EB]]]]]].
  by rewrite Hb' in Hb.
by rewrite -cat_rcons; apply: IH Hl => //; rewrite EB.
Qed.

Lemma lambd_real : lambd (IScalar 1 1) (Some (Rdiv 1 2)) [:: v1 1] [:: v1 1] = 0.
Proof.
rewrite /lambd /= rat1 /=; last by toR; lra.
rewrite /xmax2 /=; set q := Rplus _ _.
have -> // : Rleb 0 q = false by apply/Rleb_false; rewrite /q; toR; lra.
Qed.
Lemma lambd_mem : lambd (IScalar 1 1) (Some (Rdiv 1 2)) [:: v1 1; v1 1] [:: v1 (Ropp 1); v1 1] = Rdiv 3 2.
Proof.
rewrite /lambd /= !rat1 /=; [|toR; lra|toR; lra].
rewrite /xmax2 /=.
have -> : Rleb (Rdiv (Ropp (Rmult 1 (Ropp 1))) (Rmult 1 1)) (Rdiv (Ropp (Rmult 1 1)) (Rmult 1 1)) = false.
  by apply/Rleb_false; toR; lra.
rewrite /=; set q := Rplus _ _.
have -> : Rleb 0 q by apply/Rleb_true; rewrite /q; toR; lra.
by rewrite /q; toR; field.
Qed.

(** The states 1 and 2 with gradients -1 and 0 (the potential (x - 2)^2 / 2) and
    the default damping one half: the approximation of the two visited states
    is the exact second derivative, 1; the one held in a memory of any length
    above two is 5/2, the damping being raised by the pair from the origin, at
    which no gradient was ever computed. *)
Theorem C100_damping_refuted : forall m : nat, (2 < m)%N ->
  exists out out',
  [/\ mem_pqut false 1 (IScalar 1 1) (Rdiv 1 2) (mem_run m [:: row1 1 (Ropp 1); row1 2 0]) = Some out,
      bfgs_pqut [:: v1 1; v1 2] [:: v1 (Ropp 1); v1 0] (IScalar 1 1) (Some (Rdiv 1 2)) [:: true] = Some out',
      hess_prod out' (IScalar 1 1) (v1 1) = v1 1 &
      hess_prod out (IScalar 1 1) (v1 1) = v1 (Rdiv 5 2)].
Proof.
move=> m Hm.
have Hx : List.Forall (fun r => xltb NInf (qr_prior r)) [:: row1 1 (Ropp 1); row1 2 0] by repeat constructor.
have [out [out1 [E1 E2 E3]]] := @C100_filling_partial 1 m 1 (IScalar 1 1) (Rdiv 1 2) [:: row1 1 (Ropp 1); row1 2 0] Hm Hx.
exists out.
have [out' [E4 _]] := C34_no_nan [:: v1 1; v1 2] [:: v1 (Ropp 1); v1 0] (IScalar 1 1) (Rdiv 1 2) [:: true].
exists out'; split=> //.
  move: E4; rewrite pqut_scan' /bfgs_pairs /diffs /= !v1_subR.
  have -> : Rminus 2 1 = 1%R :> R by toR; ring.
  have -> : Rminus 0 (Ropp 1) = 1%R :> R by toR; ring.
  rewrite lambd_real damp1.
  have -> : Rplus 1 (Rmult 0 1) = 1%R :> R by toR; ring.
  apply: (@last1 _ [::]) => //; toR; lra.
have [-> _] := E3 (v1 1).
move: E2; rewrite pqut_scan' /bfgs_pairs.
have E0 : 0 = v1 0 by apply/matrixP => i j; rewrite !mxE.
have -> : diffs (0 :: [seq qr_value x | x <- [:: row1 1 (Ropp 1); row1 2 0]]) = [:: v1 1; v1 1].
  rewrite /diffs /= subr0 v1_subR; congr [:: _; v1 _]; toR; ring.
have -> : diffs (0 :: [seq qr_gprior x + 1%R *: qr_glik x | x <- [:: row1 1 (Ropp 1); row1 2 0]]) = [:: v1 (Ropp 1); v1 1].
  rewrite /diffs /= -E0 !scaler0 !addr0 subr0 E0 v1_subR; congr [:: _; v1 _]; toR; ring.
rewrite lambd_mem /= !damp1.
have -> : Rplus 1 (Rmult (Rdiv 3 2) 1) = Rdiv 5 2 by field.
apply: (@last1 _ [:: (_, _, false)]) => //; lra.
Qed.
Print Assumptions C100_damping_refuted.

(** * Sorted by potential *)
Lemma arg_le_total a b : arg_le a b || arg_le b a.
Proof.
rewrite /arg_le; case: a => [a| | |]; case: b => [b| | |] //=.
by apply/orP; case: (Rle_or_lt a b) => H; [left|right]; apply/Rleb_true; lra.
Qed.
Lemma arg_le_trans b a c : arg_le a b -> arg_le b c -> arg_le a c.
Proof.
rewrite /arg_le; case: a => [a| | |]; case: b => [b| | |] //; case: c => [c| | |] //=.
by move=> /Rleb_true H1 /Rleb_true H2; apply/Rleb_true; lra.
Qed.
Lemma sorted_split (A : Type) (le : rel A) (p : pred A) (t : seq A) : transitive le ->
  (forall a b, le a b -> p b -> p a) -> sorted le t -> t = filter p t ++ filter (predC p) t.
Proof.
move=> Htr Hp; elim: t => [//|a t IH] /= Hs.
have Hall : all (le a) t by exact: (order_path_min Htr).
have {}IH := IH (path_sorted Hs).
case Ea: (p a) => /=; first by rewrite -IH.
have Hn : all (predC p) t.
  elim: t Hall {IH Hs} => [//|b t IH] /= /andP [Hb Ht]; rewrite IH // andbT.
  by apply/negP => Hpb; rewrite (Hp _ _ Hb Hpb) in Ea.
have -> : filter p t = [::].
  by elim: t Hn {IH Hs Hall} => [//|b t IH] /= /andP [/negbTE -> /IH].
by have /all_filterP -> := Hn.
Qed.

Section Sorted.
Variable d : nat.
Variable T : R.
Let le (a b : qrow d) := arg_le (row_potential T a) (row_potential T b).
Lemma le_total : total le. Proof. by move=> a b; exact: arg_le_total. Qed.
Lemma le_trans : transitive le. Proof. move=> b a c; exact: arg_le_trans. Qed.
Lemma sort_parts (p : pred (qrow d)) s : (forall a b, le a b -> p b -> p a) ->
  sort le s = sort le (filter p s) ++ sort le (filter (predC p) s).
Proof.
move=> Hp; rewrite -!(filter_sort le_total le_trans).
exact: (sorted_split le_trans Hp (sort_sorted le_total s)).
Qed.
Lemma sort_zeros j : sort le (nseq j (zrow d)) = nseq j (zrow d).
Proof.
apply: (sorted_sort le_trans); case: j => // j /=; elim: j => //= j ->; rewrite andbT.
by have := le_total (zrow d) (zrow d); rewrite orbb.
Qed.
End Sorted.

Lemma filter_const (A : Type) (p : pred A) s b : List.Forall (fun x => p x = b) s -> filter p s = if b then s else [::].
Proof. by elim=> [|x l /= -> _ ->]; case: b. Qed.
Lemma Forall_drop (A : Type) (P : A -> Prop) k s : List.Forall P s -> List.Forall P (drop k s).
Proof. by elim: s k => [|x s IH] [|k] H //=; inversion H; apply: IH. Qed.
Lemma Forall_nseq (A : Type) (P : A -> Prop) k x : P x -> List.Forall P (nseq k x).
Proof. by move=> H; elim: k => [|k IH] /=; constructor. Qed.
Lemma Forall_map_nth (A : Type) (P : A -> Prop) x0 s idx : List.Forall P s -> all (fun i => (i < size s)%N) idx ->
  List.Forall P [seq nth x0 s i | i <- idx].
Proof.
move=> H; elim: idx => [|i idx IH] /=; first by constructor.
case/andP=> Hi Hs; constructor; last exact: IH.
elim: s i H Hi {IH Hs} => [//|x s IH] [|i] H /=; inversion H => //.
exact: IH.
Qed.

(** With [sort_bfgs] and a positive temperature the approximation is that of a
    run that visited the same window of states in the order of their
    potentials. *)
Theorem C100_sorted_partial d m T (D : idiag d) r (xs : seq (qrow d)) : (0 < m)%N -> Rlt 0 T ->
  List.Forall (fun r => finite (qr_prior r) /\ finite (qr_lik r)) xs ->
  let w := drop (size xs - m) xs in
  exists (idx : seq nat) (ys : seq (qrow d)),
  [/\ perm_eq idx (iota 0 (size w)), ys = [seq nth (zrow d) w i | i <- idx],
      (forall i j, (i < j < size ys)%N ->
        xleb (xadd (qr_prior (nth (zrow d) ys i)) (xmul (Fin T) (qr_lik (nth (zrow d) ys i))))
             (xadd (qr_prior (nth (zrow d) ys j)) (xmul (Fin T) (qr_lik (nth (zrow d) ys j))))) &
      mem_pqut true T D r (mem_run m xs) = mem_pqut false T D r (mem_run m ys)].
Proof.
move=> Hm HT Hx w.
have Hw : List.Forall (fun r => finite (qr_prior r) /\ finite (qr_lik r)) w by exact: Forall_drop.
have Ew : mem_run m xs = nseq (m - size w) (zrow d) ++ w.
  rewrite C100_window // /w drop_cat size_nseq size_drop drop_nseq.
  case: ltnP => H; last by rewrite subKn // subnn.
  by rewrite (eqP (ltnW H)) drop0 subn0.
set le := fun a b : qrow d => arg_le (row_potential T a) (row_potential T b).
have [idx Hidx Eidx] := perm_iota_sort le (zrow d) w.
exists idx, (sort le w).
have Hperm := perm_size Hidx; rewrite size_iota in Hperm.
have Hys : List.Forall (fun r => finite (qr_prior r) /\ finite (qr_lik r)) (sort le w).
  rewrite Eidx; apply: Forall_map_nth => //; apply/allP => i; rewrite (perm_mem Hidx) mem_iota; by [].
have Hfin : forall i, (i < size (sort le w))%N -> isnan (row_potential T (nth (zrow d) (sort le w) i)) = false.
  elim: (sort le w) Hys => [//|x s IH] H [|i] /=; inversion H; last exact: IH.
  by case: H2 => -[p Ep] [q Eq] _; rewrite /row_potential Ep Eq.
split=> //.
  move=> i j /andP [Hij Hj].
  have := sorted_ltn_nth (@le_trans d T) (zrow d) (sort_sorted (@le_total d T) w) i j.
  rewrite !inE; move=> /(_ (ltn_trans Hij Hj) Hj Hij).
  by rewrite /arg_le !Hfin //; exact: (ltn_trans Hij Hj).
have Hsz : size (sort le w) = size w by rewrite size_sort.
have Hwm : (size w <= m)%N by rewrite /w size_drop leq_subLR addnC -leq_subLR.
have Ey : mem_run m (sort le w) = nseq (m - size w) (zrow d) ++ sort le w.
  rewrite C100_window // drop_cat size_nseq Hsz drop_nseq; case: ltnP => // H.
  have -> : m = size w by apply/eqP; rewrite eqn_leq H Hwm.
  by rewrite subnn drop0.
have Eo : mem_order true T (mem_run m xs) = nseq (m - size w) (zrow d) ++ sort le w.
  rewrite /mem_order -/le Ew.
  pose p (a : qrow d) := match row_potential T a with NInf => true | _ => false end.
  have Hz : p (zrow d) by rewrite /p /row_potential /=; case: Rlt_dec.
  have Hp : List.Forall (fun x => p x = false) w.
    apply: List.Forall_impl Hw => x [[u Eu] [v Ev]]; by rewrite /p /row_potential Eu Ev.
  rewrite (@sort_parts d T p) => [|a b]; last first.
    by rewrite /arg_le /p; case: (row_potential T b); case: (row_potential T a).
  rewrite !filter_cat.
  rewrite (@filter_const _ p (nseq _ _) true); last exact: Forall_nseq.
  rewrite (@filter_const _ p w false) // cats0.
  rewrite (@filter_const _ (predC p) (nseq _ _) false); last by apply: Forall_nseq; rewrite /= Hz.
  rewrite (@filter_const _ (predC p) w true); last by apply: List.Forall_impl Hp => x /= ->.
  by rewrite sort_zeros.
rewrite /mem_pqut Eo [mem_order false _ _]/= Ey; congr bfgs_pqut.
have Hxl : forall s, List.Forall (fun r => finite (qr_prior r) /\ finite (qr_lik r)) s ->
  List.Forall (fun r : qrow d => xltb NInf (qr_prior r)) s.
  by move=> s; apply: List.Forall_impl => x [[u ->] _].
have Esz : forall s : seq (qrow d), size (mem_flags (mem_run m s)) = m.-1.
  move=> s; rewrite /mem_flags size_map size_take C100_window // size_drop size_cat size_nseq addnK.
  by case: m Hm {Hwm w Hw Ew idx Hidx Eidx Hperm Hys Hfin Hsz Ey Eo} => //= m; rewrite ltnS leqnn.
rewrite -Ey; apply: (@eq_from_nth _ false); rewrite !Esz // => i Hi.
have [_ ->] := C100_flags Hm (Hxl _ Hx) Hi.
have [_ ->] := C100_flags Hm (Hxl _ Hys) Hi.
rewrite Hsz /w size_drop; case: (leqP (size xs) m) => H; first by rewrite (eqP H) subn0.
by rewrite subKn ?(ltnW H) // leq_addl (leq_trans (ltnW H)) // leq_addl.
Qed.
Print Assumptions C100_sorted_partial.

Lemma scan'_idle d (D : idiag d) r pairs done out :
  all (fun p => ~~ p.2 || (p.1.1 == 0)) pairs -> scan' D r done pairs = Some out ->
  Bmat (done ++ out) D = Bmat done D.
Proof.
elim: pairs done out => [|[[s y] b] pairs IH] done out; first by move=> _ [<-]; rewrite cats0.
move=> /andP [/= Hs Hp] /scan'_step [Q [l [-> Hl H]]]; rewrite -cat_rcons (IH _ _ Hp Hl).
case: H => [[[Hb [Hy _]] _]|[_ [_ ->]]] //; move: Hs; rewrite Hb /= => /eqP Es.
by move: Hy; rewrite bil1 Es dot0l => Hy; exfalso; move: Hy; toR; lra.
Qed.

Lemma lambd_two : lambd (IScalar 1 1) (Some (Rdiv 1 2)) [:: v1 (IZR 1)] [:: v1 (IZR 2)] = 0.
Proof.
rewrite /lambd /= rat1 /=; last by toR; lra.
rewrite /xmax2 /=; set q := Rplus _ _.
have -> // : Rleb 0 q = false by apply/Rleb_false; rewrite /q; toR; lra.
Qed.

Lemma all_idle d (ss ys : seq 'cV[R]_d) (ub : seq bool) :
  (forall i, nth false ub i -> nth 0 ss i = 0) ->
  all (fun p => ~~ p.2 || (p.1.1 == 0)) (zip (zip ss ys) ub).
Proof.
elim: ss ys ub => [|s ss IH] [|y ys] [|b ub] //= H; apply/andP; split; last by apply: IH => i; exact: (H i.+1).
by case: b H => //= H; apply/eqP; exact: (H 0%N).
Qed.
Lemma diffs_zero_from d (l : seq 'cV[R]_d) k i : (forall j, (k <= j)%N -> nth 0 l j = 0) -> (k <= i)%N -> nth 0 (diffs l) i = 0.
Proof.
elim: l k i => [|a [|b l] IH] k i H Hi; [by case: i Hi|by case: i Hi => [|[]]|].
case: i Hi => [|i] Hi; first by rewrite /diffs /=; move: Hi H; rewrite leqn0 => /eqP -> H; rewrite -[b]/(nth 0 (a :: b :: l) 1) -[a in _ - a]/(nth 0 (a :: b :: l) 0) !H // subr0.
apply: (IH k.-1); last by case: k Hi {H}.
by move=> j Hj; apply: (H j.+1); case: k Hj {H Hi}.
Qed.

(** The states 1 and 2 with the potential x^2 *)
Definition rowq (x : R) : qrow 1 := QRow (v1 x) (Fin (Rmult x x)) (v1 (Rmult 2 x)) (Fin 0) (v1 0).

(** At temperature zero the unfilled rows have potential NaN and are sorted
    last, but the flags are computed on the unsorted memory: with a memory of any
    length above three the one pair of visited states is not used, and the
    approximation stays at its initial value 1; unsorted it is the exact second
    derivative, 2. *)
Theorem C100_sorted_temperature_zero_refuted : forall m : nat, (3 < m)%N ->
  exists out out',
  [/\ mem_pqut true 0 (IScalar 1 1) (Rdiv 1 2) (mem_run m [:: rowq (IZR 1); rowq (IZR 2)]) = Some out,
      mem_pqut false 0 (IScalar 1 1) (Rdiv 1 2) (mem_run m [:: rowq (IZR 1); rowq (IZR 2)]) = Some out',
      hess_prod out' (IScalar 1 1) (v1 (IZR 1)) = v1 (IZR 2) &
      forall z, hess_prod out (IScalar 1 1) (v1 z) = v1 z].
Proof.
move=> m Hm.
have Hm0 : (0 < m)%N by apply: leq_trans Hm.
have Hm2 : (2 < m)%N by apply: leq_trans Hm.
have Hx : List.Forall (fun r => xltb NInf (qr_prior r)) [:: rowq (IZR 1); rowq (IZR 2)] by repeat constructor.
have E0 : 0 = v1 0 by apply/matrixP => i j; rewrite !mxE.
have [out'' E''] : exists out, mem_pqut true 0 (IScalar 1 1) (Rdiv 1 2) (mem_run m [:: rowq (IZR 1); rowq (IZR 2)]) = Some out.
  by rewrite /mem_pqut; set v := map _ _; set g := map _ _; set f := mem_flags _;
     have [o [-> _]] := C34_no_nan v g (IScalar 1 1) (Rdiv 1 2) f; exists o.
exists out''.
have Hc : Rle 1e-10 (init_curv (IScalar 1 1) (qr_value (rowq (IZR 1)))) ->
    Rle (Rmult (Rdiv 1 2) (init_curv (IScalar 1 1) (qr_value (rowq (IZR 1)))))
        (dot (qr_value (rowq (IZR 1))) (qr_gprior (rowq (IZR 1)) + 0%R *: qr_glik (rowq (IZR 1)))).
  rewrite /= curv1 scale0r addr0 dot_v1 => _.
  have HL : Rle (Rmult (Rdiv 1 2) (Rmult 1 1)) (Rmult 1 (Rmult 2 1)) by lra.
  exact: HL.
have [o1 [o2 [E1 E2 E3]]] := @C100_filling_exact_partial 1 m 0 (IScalar 1 1) (Rdiv 1 2) (rowq (IZR 1)) [:: rowq (IZR 2)] Hm2 Hx Hc.
exists o1; split=> //.
  have [-> _] := E3 (v1 (IZR 1)); move: E2; rewrite pqut_scan' /bfgs_pairs /diffs /= !scale0r !addr0 !v1_subR.
  have -> : Rminus 2 1 = 1%R :> R by toR; ring.
  have -> : Rminus (Rmult 2 2) (Rmult 2 1) = IZR 2 by ring.
  rewrite lambd_two damp1.
  have -> : Rplus 2 (Rmult 0 1) = IZR 2 by ring.
  apply: (@last1 _ [::]) => //; toR; lra.
move=> z.
have Esort : mem_order true 0 (mem_run m [:: rowq (IZR 1); rowq (IZR 2)]) = [:: rowq (IZR 1); rowq (IZR 2)] ++ nseq (m - 2) (zrow 1).
  rewrite /mem_order C100_window // drop_cat size_nseq Hm2 drop_nseq.
  pose p (a : qrow 1) := ~~ isnan (row_potential 0 a).
  have Hz : p (zrow 1) = false.
    by rewrite /p /row_potential /=; case: Rlt_dec => [H|_] //; exfalso; move: H; toR; lra.
  rewrite (@sort_parts 1 0 p) => [|a b]; last first.
    by rewrite /arg_le /p; case: (row_potential 0 b); case: (row_potential 0 a).
  rewrite !filter_cat (@filter_const _ p (nseq _ _) false); last exact: Forall_nseq.
  rewrite (@filter_const _ (predC p) (nseq _ _) true); last by apply: Forall_nseq; rewrite /= Hz.
  rewrite (@filter_const _ p [:: rowq (IZR 1); rowq (IZR 2)] true); last by repeat constructor.
  rewrite (@filter_const _ (predC p) [:: rowq (IZR 1); rowq (IZR 2)] false); last by repeat constructor.
  rewrite cats0 sort_zeros sorted_sort //; first exact: (@le_trans 1 0).
  rewrite /= andbT /arg_le /=; apply/Rleb_true.
  have HL : Rle (Rplus (Rmult 1 1) (Rmult 0 0)) (Rplus (Rmult 2 2) (Rmult 0 0)) by lra.
  exact: HL.
move: E''; rewrite /mem_pqut Esort pqut_scan' => /(scan'_idle _) H.
rewrite hess_prodE -[Cmat _ _ *m _]/(Bmat ([::] ++ out'') (IScalar 1 1)) H; first by rewrite -[RHS]hess1_nil hess_prodE.
apply: all_idle => i Hi.
have Hi1 : (i < m.-1)%N.
  have Esz : size (mem_flags (mem_run m [:: rowq (IZR 1); rowq (IZR 2)])) = m.-1.
    have Hm1 : (0 < m.-1)%N by rewrite -ltnS (ltn_predK Hm0); exact: leq_trans Hm2.
    by have [] := C100_flags Hm0 Hx Hm1.
  by rewrite -Esz ltnNge; apply/negP => Hge; rewrite nth_default in Hi.
have [_ Ei] := C100_flags Hm0 Hx Hi1; rewrite Ei /= in Hi.
have Hi2 : (2 <= i)%N by rewrite -(leq_add2r 2); apply: leq_trans Hi.
apply: diffs_zero_from Hi2.
by case=> [|[|k]] // _; rewrite map_cat /= map_nseq nth_nseq; case: ifP.
Qed.
Print Assumptions C100_sorted_temperature_zero_refuted.

(** Example: a memory of three rows after four states holds the last three; a
    memory of five holds all four behind one unfilled row. *)
Example C100_example :
  let xs := [:: rowq (IZR 4); rowq (IZR 3); rowq (IZR 2); rowq (IZR 1)] in
  [/\ mem_run 3 xs = [:: rowq (IZR 3); rowq (IZR 2); rowq (IZR 1)],
      mem_flags (mem_run 3 xs) = [:: true; true],
      mem_run 5 xs = [:: zrow 1; rowq (IZR 4); rowq (IZR 3); rowq (IZR 2); rowq (IZR 1)] &
      mem_flags (mem_run 5 xs) = [:: false; true; true; true]].
Proof. by split. Qed.
