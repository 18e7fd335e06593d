(** Proofs about the BFGS square roots. *)
From Coq Require Import Reals Lra.
From mathcomp Require Import ssreflect ssrfun ssrbool eqtype ssrnat seq choice fintype bigop ssralg matrix.
From Verif Require Import XR RStruct BfgsModel BfgsSpec.
Set Implicit Arguments.
Unset Strict Implicit.
Import GRing.Theory.
Local Open Scope ring_scope.

Section P.
Variable d : nat.
Notation vect := 'cV[R]_d.
Implicit Types (z w s y p q u t : vect) (D : idiag d).

Lemma dotE z w : dot z w = (z^T *m w) ord0 ord0.
Proof. by rewrite /dot mxE; apply: eq_bigr => i _; rewrite mxE. Qed.
Lemma dot11 z w : z^T *m w = (dot z w)%:M.
Proof. by rewrite [LHS]mx11_scalar dotE. Qed.
Lemma dotC z w : dot z w = dot w z.
Proof. by rewrite /dot; apply: eq_bigr => i _; rewrite mulrC. Qed.
Lemma dotDr z w v : dot z (w + v) = dot z w + dot z v.
Proof. by rewrite !dotE mulmxDr mxE. Qed.
Lemma dotDl z w v : dot (z + w) v = dot z v + dot w v.
Proof. by rewrite dotC dotDr ![dot v _]dotC. Qed.
Lemma dotNr z w : dot z (- w) = - dot z w.
Proof. by rewrite !dotE mulmxN mxE. Qed.
Lemma dotNl z w : dot (- z) w = - dot z w.
Proof. by rewrite dotC dotNr dotC. Qed.
Lemma dotZr (a : R) z w : dot z (a *: w) = a * dot z w.
Proof. by rewrite !dotE -scalemxAr mxE. Qed.
Lemma dotZl (a : R) z w : dot (a *: z) w = a * dot z w.
Proof. by rewrite dotC dotZr dotC. Qed.
Lemma dot0r z : dot z 0 = 0.
Proof. by rewrite dotE mulmx0 mxE. Qed.
Lemma dot0l z : dot 0 z = 0. Proof. by rewrite dotC dot0r. Qed.
Definition dotL := (dotDr, dotDl, dotNr, dotNl, dotZr, dotZl, dot0r, dot0l).

Lemma sumR_ge0 (I : finType) (F : I -> R) : (forall i, Rle 0 (F i)) -> Rle 0 (\sum_i F i).
Proof.
move=> H; apply: (big_ind (fun x : R => Rle 0 x)) => //; first exact: Rle_refl.
by move=> a b Ha Hb; apply: Rplus_le_le_0_compat.
Qed.
Lemma dot_ge0 z : Rle 0 (dot z z).
Proof. by apply: sumR_ge0 => i; exact: Rle_0_sqr. Qed.
Lemma dot_eq0 z : dot z z = 0 -> z = 0.
Proof.
move=> H; apply/matrixP => i j; rewrite ord1 [RHS]mxE.
have: Rle (z i ord0 * z i ord0) (dot z z).
  rewrite /dot (bigD1 i) //= -[X in Rle X _]Rplus_0_r; apply: Rplus_le_compat_l.
  apply: (big_ind (fun x : R => Rle 0 x)) => //; first exact: Rle_refl.
    by move=> a b Ha Hb; apply: Rplus_le_le_0_compat.
  by move=> k _; exact: Rle_0_sqr.
by rewrite H => Hle; apply: Rsqr_0_uniq; apply: Rle_antisym => //; exact: Rle_0_sqr.
Qed.
Lemma dot_gt0 z : z <> 0 -> Rlt 0 (dot z z).
Proof. by move=> H; case: (dot_ge0 z) => [//|E]; case: H; apply: dot_eq0; rewrite -E. Qed.

Definition dg D : 'M[R]_d := diag_mx (dvec D)^T.
Lemma dmul_mx D z : dmul (dvec D) z = dg D *m z.
Proof. apply/matrixP => i j. rewrite /dg mul_diag_mx (ord1 j). rewrite mxE [RHS]mxE; congr (_ * _). by rewrite mxE. Qed.
Lemma dg_tr D : (dg D)^T = dg D. Proof. exact: tr_diag_mx. Qed.

Definition fac p q : 'M[R]_d := 1%:M - p *m q^T.
Lemma fac_mul p q z : fac p q *m z = z - dot q z *: p.
Proof. by rewrite /fac mulmxBl mul1mx -mulmxA dot11 mul_mx_scalar. Qed.
Lemma fac_tr p q : (fac p q)^T = fac q p.
Proof. by rewrite /fac linearB /= trmx1 trmx_mul trmxK. Qed.
Lemma fac0 q : fac 0 q = 1%:M. Proof. by rewrite /fac mul0mx subr0. Qed.

Fixpoint prodmx (l : seq (vect * vect)) : 'M[R]_d :=
  if l is pq :: l' then prodmx l' *m fac pq.1 pq.2 else 1%:M.
Lemma prodmx_cat l l' : prodmx (l ++ l') = prodmx l' *m prodmx l.
Proof. by elim: l => [|pq l IH] /=; rewrite ?mulmx1 // IH mulmxA. Qed.
Lemma prodmx_zeros l : all (fun pq => pq.1 == 0) l -> prodmx l = 1%:M.
Proof. by elim: l => [//|[p q] l IH] /= /andP [/eqP -> /IH ->]; rewrite mul1mx fac0. Qed.

Lemma sqrt_prodE ps qs z D : sqrt_prod ps qs z D = prodmx (zip ps qs) *m dg D *m z.
Proof.
rewrite /sqrt_prod dmul_mx -mulmxA; move: (dg D *m z) => c.
elim: (zip ps qs) c => [|[p q] l IH] c /=; first by rewrite mul1mx.
by rewrite IH -mulmxA fac_mul.
Qed.
Lemma sqrt_transpose_prodE ps qs z D :
  sqrt_transpose_prod ps qs z D = (prodmx (zip ps qs) *m dg D)^T *m z.
Proof.
rewrite /sqrt_transpose_prod dmul_mx trmx_mul dg_tr -mulmxA; congr (_ *m _).
elim: (zip ps qs) z => [|[p q] l IH] c /=; first by rewrite trmx1 mul1mx.
rewrite rev_cons foldl_rcons /= IH trmx_mul fac_tr -mulmxA.
by rewrite fac_mul.
Qed.

Lemma dot_adj (M : 'M[R]_d) z w : dot w (M *m z) = dot (M^T *m w) z.
Proof. by rewrite !dotE trmx_mul trmxK mulmxA. Qed.

Lemma bilE z (M : 'M[R]_d) w : bil z M w = dot z (M *m w).
Proof. by rewrite /bil -mulmxA dotE. Qed.
Lemma bil1 z w : bil z 1%:M w = dot z w. Proof. by rewrite bilE mul1mx. Qed.

(** the pair matrices of an output *)
Definition umat (out : seq (quad d)) : 'M[R]_d := prodmx [seq (qu Q, qt Q) | Q <- out].
Definition pmat (out : seq (quad d)) : 'M[R]_d := prodmx [seq (qp Q, qq Q) | Q <- out].
Lemma zip_map2 A B C (f : A -> B) (g : A -> C) l : zip (map f l) (map g l) = [seq (f x, g x) | x <- l].
Proof. by elim: l => [//|x l IH] /=; rewrite IH. Qed.

Definition Cmat out D := umat out *m dg D.
Lemma hess_prodE out D z : hess_prod out D z = Cmat out D *m (Cmat out D)^T *m z.
Proof. by rewrite /hess_prod sqrt_prodE sqrt_transpose_prodE !zip_map2 -[RHS]mulmxA. Qed.
Definition Pmat out D := pmat out *m dg (dinv D).
Lemma hess_inv_prodE out D z : hess_inv_prod out D z = Pmat out D *m (Pmat out D)^T *m z.
Proof. by rewrite /hess_inv_prod sqrt_prodE sqrt_transpose_prodE !zip_map2 -[RHS]mulmxA. Qed.

(** ** One step *)
Definition good (Q : quad d) : Prop := (fac (qp Q) (qq Q))^T *m fac (qu Q) (qt Q) = 1%:M.

Lemma good_zero : good (zquad d).
Proof. by rewrite /good /= !fac0 trmx1 mulmx1. Qed.

(** the quadruple of a used pair *)
Definition mkq (s y b : vect) : quad d :=
  let sy := dot s y in let sBs := dot s b in
  Quad (sy^-1 *: s) (sqrt (sy / sBs) *: b + y) (sqrt (sBs / sy) *: y + b) (sBs^-1 *: s).

Lemma sqrt_ratio (a b : R) : Rlt 0 a -> Rlt 0 b ->
  exists c : R, Rlt 0 c /\ sqrt (b / a) = c /\ sqrt (a / b) = Rinv c /\ Rmult a (Rmult c c) = b.
Proof.
move=> Ha Hb; exists (sqrt (b / a)).
have Hp : Rlt 0 (b / a) by apply: Rdiv_lt_0_compat.
have Hs := sqrt_lt_R0 _ Hp.
split => //; split => //; split.
  rewrite -sqrt_inv; congr sqrt; field; split; lra.
rewrite sqrt_def; last lra.
by field; lra.
Qed.

Lemma good_mkq s y b : Rlt 0 (dot s y) -> Rlt 0 (dot s b) -> good (mkq s y b).
Proof.
move=> Hy Hb; rewrite /good /mkq /=.
have [c [Hc [-> [-> Hcc]]]] := sqrt_ratio Hy Hb.
set sy := dot s y in Hy Hcc *; set sb := dot s b in Hb Hcc *.
rewrite fac_tr /fac mulmxBl mul1mx mulmxBr mulmx1.
set q := _ + y; set u := _ + b.
have Eu : u = c *: q.
  rewrite /u /q scalerDr scalerA addrC; congr (_ + _).
  have -> : c * Rinv c = 1 by toR; field; lra.
  by rewrite scale1r.
have Epu : dot (sy^-1 *: s) u = c + c * c.
  rewrite /u !dotL -/sy -/sb; toR.
  by rewrite -Hcc; field; lra.
rewrite -[q *m _ *m (u *m _)]mulmxA [_^T *m (_ *m _)]mulmxA dot11 Epu mul_scalar_mx.
rewrite Eu ![(_ *: s)^T]linearZ /= -?scalemxAl -?scalemxAr -?scalemxAl -?scalemxAr ?scalerA.
rewrite -scalerBl -addrA -opprD -scalerDl.
suff -> : c / sb + (sy^-1 - (c + c * c) / sb) = 0 by rewrite scale0r subr0.
by rewrite -Hcc; toR; field; lra.
Qed.

(** ** The dense approximation *)
Definition Bmat out D : 'M[R]_d := Cmat out D *m (Cmat out D)^T.
Lemma Bmat_sym out D : (Bmat out D)^T = Bmat out D.
Proof. by rewrite /Bmat trmx_mul trmxK. Qed.
Lemma Bmat_quad out D z : dot z (Bmat out D *m z) = dot ((Cmat out D)^T *m z) ((Cmat out D)^T *m z).
Proof. by rewrite /Bmat -mulmxA dot_adj. Qed.
Lemma Bmat_psd out D z : Rle 0 (dot z (Bmat out D *m z)).
Proof. by rewrite Bmat_quad; exact: dot_ge0. Qed.
Lemma Cmat_rcons out Q D : Cmat (rcons out Q) D = fac (qu Q) (qt Q) *m Cmat out D.
Proof. by rewrite /Cmat /umat -cats1 map_cat prodmx_cat /= mul1mx mulmxA. Qed.
Lemma Bmat_rcons out Q D :
  Bmat (rcons out Q) D = fac (qu Q) (qt Q) *m Bmat out D *m fac (qt Q) (qu Q).
Proof. by rewrite /Bmat Cmat_rcons trmx_mul fac_tr !mulmxA. Qed.
Lemma Bmat_zero out D : Bmat (rcons out (zquad d)) D = Bmat out D.
Proof. by rewrite Bmat_rcons /= !fac0 mul1mx mulmx1. Qed.
Lemma Bmat_nil D : Bmat [::] D = dg D *m dg D.
Proof. by rewrite /Bmat /Cmat /umat /= mul1mx dg_tr. Qed.

Lemma outerE z w i j : (z *m w^T) i j = z i ord0 * w j ord0.
Proof. by rewrite mxE big_ord_recl big_ord0 addr0 mxE. Qed.

Lemma update_mkq (B : 'M[R]_d) s y : B^T = B -> Rlt 0 (dot s y) -> Rlt 0 (dot s (B *m s)) ->
  let Q := mkq s y (B *m s) in
  fac (qu Q) (qt Q) *m B *m fac (qt Q) (qu Q) = bfgs_update B s y.
Proof.
move=> SB Hy Hb Q.
rewrite /Q /mkq /= /bfgs_update !bilE mul1mx.
have [c [Hc [-> [_ Hcc]]]] := sqrt_ratio Hy Hb.
have -> : B *m s *m s^T *m B = B *m s *m (B *m s)^T by rewrite trmx_mul SB !mulmxA.
set b := B *m s in Hb Hcc *.
set sy := dot s y in Hy Hcc *; set sb := dot s b in Hb Hcc *.
set u := _ + b; set t := _ *: s.
have Bt : B *m t = sb^-1 *: b by rewrite /t -scalemxAr.
have tB : t^T *m B = (B *m t)^T by rewrite trmx_mul SB.
have tBt : dot t (B *m t) = sb^-1.
  rewrite Bt /t !dotL -/sb; toR; field; lra.
have -> : fac u t *m B *m fac t u
  = B - u *m (B *m t)^T - B *m t *m u^T + dot t (B *m t) *: (u *m u^T).
  rewrite /fac mulmxBl mul1mx -[u *m t^T *m B]mulmxA tB mulmxBr mulmx1.
  rewrite mulmxBl [B *m (t *m _)]mulmxA [u *m _ *m (t *m _)]mulmxA.
  have -> : u *m (B *m t)^T *m t = dot t (B *m t) *: u.
    by rewrite -mulmxA dot11 dotC mul_mx_scalar.
  by rewrite -scalemxAl !opprD opprK !addrA addrAC.
rewrite tBt Bt; apply/matrixP => i j.
have E : forall M N : 'M[R]_d, (M + N) i j = M i j + N i j by move=> *; rewrite mxE.
have En : forall M : 'M[R]_d, (- M) i j = - M i j by move=> *; rewrite mxE.
have Ez : forall a (M : 'M[R]_d), (a *: M) i j = a * M i j by move=> *; rewrite mxE.
have Ev : forall k, u k ord0 = c * y k ord0 + b k ord0 by move=> k; rewrite /u !mxE.
have Eb : forall k, (sb^-1 *: b) k ord0 = sb^-1 * b k ord0 by move=> k; rewrite mxE.
rewrite !E !En !Ez !outerE !Ev !Eb.
move: (b i ord0) (b j ord0) (y i ord0) (y j ord0) (B i j) => bi bj yi yj Bij.
by rewrite -Hcc; toR; field; lra.
Qed.

Lemma update_secant (B : 'M[R]_d) s y : B^T = B -> dot s y <> 0 -> dot s (B *m s) <> 0 ->
  bfgs_update B s y *m s = y.
Proof.
move=> SB Hy Hb; rewrite /bfgs_update !bilE mul1mx mulmxDl mulmxBl -!scalemxAl.
rewrite -[y *m _ *m s]mulmxA dot11 [dot y s]dotC mul_mx_scalar.
have -> : B *m s *m s^T *m B *m s = dot s (B *m s) *: (B *m s).
  by rewrite -!mulmxA dot11 mul_mx_scalar -scalemxAr.
rewrite !scalerA !mulVf ?scale1r ?addrN ?add0r //; exact/eqP.
Qed.

(** ** The scan in terms of the dense approximation *)
Fixpoint scan' D r (done : seq (quad d)) (pairs : seq (vect * vect * bool)) : option (seq (quad d)) :=
  match pairs with
  | [::] => Some [::]
  | (s, y, ub) :: pairs' =>
      let b := Bmat done D *m s in
      if used r ub (dot s y) (dot s b) && Rltb (dot s y / dot s b) 0 then None
      else let Q := if used r ub (dot s y) (dot s b) then mkq s y b else zquad d in
           omap (cons Q) (scan' D r (rcons done Q) pairs')
  end.

Lemma set_nth_pad A (x0 : A) l k x :
  set_nth x0 (l ++ nseq k.+1 x0) (size l) x = rcons l x ++ nseq k x0.
Proof. by elim: l => [//|a l IH] /=; rewrite -IH. Qed.
Lemma zip_zeros (A B : Type) (x : A) (y : B) k : zip (nseq k x) (nseq k y) = nseq k (x, y).
Proof. by elim: k => [//|k IH] /=; rewrite IH. Qed.
Lemma prodmx_pad done k :
  prodmx (zip (map (@qu d) done ++ nseq k 0) (map (@qt d) done ++ nseq k 0)) = umat done.
Proof.
rewrite zip_cat ?size_map // zip_map2 zip_zeros prodmx_cat prodmx_zeros ?mul1mx //.
by apply/allP => pq /nseqP [-> _] /=.
Qed.

Lemma scan_scan' D r pairs done us ts :
  us = map (@qu d) done ++ nseq (size pairs) 0 -> ts = map (@qt d) done ++ nseq (size pairs) 0 ->
  bfgs_scan D r pairs (size done) us ts = scan' D r done pairs.
Proof.
elim: pairs done us ts => [//|[[s y] ub] pairs IH] done us ts Eus Ets.
rewrite [LHS]/= [RHS]/= /bfgs_body.
rewrite sqrt_prodE sqrt_transpose_prodE Eus Ets prodmx_pad -Eus -Ets.
rewrite -/(Cmat done D) mulmxA -/(Bmat done D).
have Hrec : forall Q, bfgs_scan D r pairs (size done).+1
    (set_nth 0 us (size done) (qu Q)) (set_nth 0 ts (size done) (qt Q))
    = scan' D r (rcons done Q) pairs.
  move=> Q; rewrite -(size_rcons done Q); apply: IH; rewrite map_rcons ?Eus ?Ets.
    by rewrite -(size_map (@qu d) done) set_nth_pad.
  by rewrite -(size_map (@qt d) done) set_nth_pad.
case: (used _ _ _ _) => [/=|].
  case: (Rltb _ _) => //; rewrite -Hrec; by case: (bfgs_scan _ _ _ _ _ _).
by rewrite [_ && _]/= -Hrec; case: (bfgs_scan _ _ _ _ _ _).
Qed.

Lemma pqut_scan' vals grads D r ub :
  bfgs_pqut vals grads D r ub = scan' D r [::] (bfgs_pairs vals grads D r ub).
Proof. by rewrite /bfgs_pqut; apply: (@scan_scan' _ _ _ [::]). Qed.

Lemma usedP r ub (sy sb : R) : Rle 0 sb -> used r ub sy sb -> Rltb (sy / sb) 0 = false ->
  Rlt 1e-10 sy /\ Rlt 1e-10 sb /\ ub.
Proof.
move=> Hb /andP [/andP [_ /Rltb_true Hm] Hu] /Rltb_false Hr.
have Hm1 := Rle_lt_trans _ _ _ (Req_le _ _ erefl) (Rlt_le_trans _ _ _ Hm (Rmin_l _ _)).
have Hm2 := Rle_lt_trans _ _ _ (Req_le _ _ erefl) (Rlt_le_trans _ _ _ Hm (Rmin_r _ _)).
rewrite Rabs_right in Hm1; last lra.
have Hs : Rle 0 sy.
  have -> : sy = Rmult (Rdiv sy sb) sb by field; lra.
  by apply: Rmult_le_pos => //; lra.
by rewrite Rabs_right in Hm2; last lra.
Qed.

Lemma used_conv r (ub : bool) (sy sb : R) : Rlt 1e-10 sy -> Rlt 1e-10 sb -> ub -> used r ub sy sb.
Proof.
move=> Hy Hb ->; rewrite /used andbT; apply/andP; split.
  by apply/orP; right; apply/Rltb_true; lra.
apply/Rltb_true; apply: Rmin_glb_lt; rewrite Rabs_right; lra.
Qed.

Lemma scan'_good D r pairs done out : scan' D r done pairs = Some out -> List.Forall good out.
Proof.
elim: pairs done out => [|[[s y] ub] pairs IH] done out /=.
  by case=> <-; constructor.
set b := Bmat done D *m s.
case U: (used _ _ _ _) => /=.
  case V: (Rltb _ _) => //.
  have [Hy [Hb _]] := usedP (Bmat_psd done D s) U V.
  case E: (scan' _ _ _ _) => [l|//] [<-]; constructor; last exact: (IH _ _ E).
  by apply: good_mkq; rewrite -/b in Hb *; lra.
case E: (scan' _ _ _ _) => [l|//] [<-]; constructor; last exact: (IH _ _ E).
exact: good_zero.
Qed.

Lemma good_inv out : List.Forall good out -> (pmat out)^T *m umat out = 1%:M.
Proof.
elim=> [|Q l HQ _ IH] /=; first by rewrite /pmat /umat /= trmx1 mulmx1.
rewrite /pmat /umat /= trmx_mul -mulmxA [(prodmx _)^T *m _]mulmxA.
by rewrite -/(pmat l) -/(umat l) IH mul1mx.
Qed.

Definition dnz D : Prop := forall i, dvec D i ord0 <> 0.
Lemma dg_inv D : dnz D -> dg (dinv D) *m dg D = 1%:M.
Proof.
move=> H; apply/matrixP => i j; rewrite /dg mul_diag_mx !mxE; case: eqP => [->|]; last by rewrite mulr0.
have := H j; rewrite /= /dinv; case: D H => [c|v] _ /=; rewrite !mxE => /eqP Hc; by rewrite mulr1n mulVf.
Qed.

Lemma PtC D out : dnz D -> List.Forall good out -> (Pmat out D)^T *m Cmat out D = 1%:M.
Proof.
move=> HD G; rewrite /Pmat /Cmat trmx_mul -mulmxA [(pmat _)^T *m _]mulmxA (good_inv G) mul1mx.
by rewrite dg_tr dg_inv.
Qed.

Lemma PCt D out : dnz D -> List.Forall good out -> Pmat out D *m (Cmat out D)^T = 1%:M.
Proof.
move=> HD G; apply: mulmx1C.
by rewrite -[LHS]trmxK trmx_mul trmxK (PtC HD G) trmx1.
Qed.
Lemma CPt D out : dnz D -> List.Forall good out -> Cmat out D *m (Pmat out D)^T = 1%:M.
Proof. by move=> HD G; apply: mulmx1C; apply: PtC. Qed.
Lemma CtP D out : dnz D -> List.Forall good out -> (Cmat out D)^T *m Pmat out D = 1%:M.
Proof. by move=> HD G; apply: mulmx1C; apply: PCt. Qed.

Lemma inv_hess D out z : dnz D -> List.Forall good out ->
  hess_inv_prod out D (hess_prod out D z) = z /\ hess_prod out D (hess_inv_prod out D z) = z.
Proof.
move=> HD G; rewrite !hess_prodE !hess_inv_prodE; split.
  have -> : Pmat out D *m (Pmat out D)^T *m (Cmat out D *m (Cmat out D)^T *m z)
    = Pmat out D *m ((Pmat out D)^T *m Cmat out D) *m (Cmat out D)^T *m z by rewrite !mulmxA.
  by rewrite (PtC HD G) mulmx1 (PCt HD G) mul1mx.
have -> : Cmat out D *m (Cmat out D)^T *m (Pmat out D *m (Pmat out D)^T *m z)
  = Cmat out D *m ((Cmat out D)^T *m Pmat out D) *m (Pmat out D)^T *m z by rewrite !mulmxA.
by rewrite (CtP HD G) mulmx1 (CPt HD G) mul1mx.
Qed.

Lemma Bmat_pd D out z : dnz D -> List.Forall good out -> z <> 0 -> Rlt 0 (dot z (Bmat out D *m z)).
Proof.
move=> HD G Hz; rewrite Bmat_quad; apply: dot_gt0 => E; apply: Hz.
by rewrite -[z]mul1mx -(PCt HD G) -mulmxA E mulmx0.
Qed.

Lemma scan'_step D r done s y ub pairs out :
  scan' D r done ((s, y, ub) :: pairs) = Some out ->
  exists Q l, [/\ out = Q :: l, scan' D r (rcons done Q) pairs = Some l &
    (pair_used (Bmat done D) s y ub /\ Q = mkq s y (Bmat done D *m s)
       /\ Bmat (rcons done Q) D = bfgs_update (Bmat done D) s y)
    \/ (~ pair_used (Bmat done D) s y ub /\ Q = zquad d /\ Bmat (rcons done Q) D = Bmat done D)].
Proof.
rewrite /=; set b := Bmat done D *m s.
case U: (used _ _ _ _) => /=.
  case V: (Rltb _ _) => //.
  have [Hy [Hb Hu]] := usedP (Bmat_psd done D s) U V.
  case E: (scan' _ _ _ _) => [l|//] [<-]; exists (mkq s y b), l; split => //; left; split.
    by rewrite /pair_used bil1 bilE.
  split=> //; rewrite Bmat_rcons update_mkq //; first exact: Bmat_sym.
    lra.
  by rewrite -/b in Hb *; lra.
case E: (scan' _ _ _ _) => [l|//] [<-]; exists (zquad d), l; split => //; right; split; last first.
  by split=> //; exact: Bmat_zero.
rewrite /pair_used bil1 bilE => -[Hu [Hy Hb]].
by have := used_conv r Hy Hb Hu; rewrite -/b U.
Qed.

Lemma scan'_dense D r pairs done out : scan' D r done pairs = Some out ->
  bfgs_dense (Bmat done D) pairs (Bmat (done ++ out) D).
Proof.
elim: pairs done out => [|[[s y] ub] pairs IH] done out.
  by case=> <-; rewrite cats0; constructor.
move/scan'_step => [Q [l [-> /IH Hl H]]]; rewrite -cat_rcons.
case: H Hl => [[H1 [_ ->]]|[H1 [_ ->]]] Hl; by [apply: DenseUse | apply: DenseSkip].
Qed.

Lemma scan'_secant D r pairs done out : scan' D r done pairs = Some out ->
  forall k s y ub, (k < size pairs)%N -> nth (0, 0, false) pairs k = (s, y, ub) ->
  pair_used (Bmat (done ++ take k out) D) s y ub ->
  Bmat (done ++ take k.+1 out) D *m s = y.
Proof.
elim: pairs done out => [//|[[s0 y0] ub0] pairs IH] done out.
move/scan'_step => [Q [l [-> Hl H]]] [|k] s y ub Hk /=.
  case=> <- <- <-; rewrite cats0 take0 cats1.
  case: H => [[_ [_ ->]]|[//]] [_ [Hy Hb]].
  rewrite bil1 in Hy; rewrite bilE in Hb; apply: update_secant; first exact: Bmat_sym.
    by move=> E; rewrite E -R0E in Hy; lra.
  by move=> E; rewrite E -R0E in Hb; lra.
rewrite -!cat_rcons; exact: (IH _ _ Hl k s y ub Hk).
Qed.

Lemma scan'_size D r pairs done out : scan' D r done pairs = Some out -> size out = size pairs.
Proof.
elim: pairs done out => [|[[s y] ub] pairs IH] done out; first by case=> <-.
by move/scan'_step => [Q [l [-> /IH /= -> _]]].
Qed.

Lemma scan'_total D r pairs done : scan' D (Some r) done pairs <> None.
Proof.
elim: pairs done => [//|[[s y] ub] pairs IH] done /=.
case U: (used _ _ _ _) => /=; last by case E: (scan' _ _ _ _) => [l|//] //; case: (IH _ E).
suff -> : Rltb (Rdiv (dot s y) (dot s (Bmat done D *m s))) 0 = false.
  by case E: (scan' _ _ _ _) => [l|//] //; case: (IH _ E).
move: U => /andP [/andP [/= /Rltb_true Hs /Rltb_true Hm] _].
have Hm1 := Rlt_le_trans _ _ _ Hm (Rmin_l _ _).
rewrite Rabs_right in Hm1; last by apply: Rle_ge; exact: Bmat_psd.
apply/Rltb_false; apply: Rlt_le; apply: Rdiv_lt_0_compat; first by toR; lra.
lra.
Qed.

(** ** Damping *)
Definition notnan (x : xr) : bool := match x with NInf | Fin _ => true | _ => false end.
Lemma xmax2_spec a b : notnan a -> notnan b ->
  [/\ notnan (xmax2 a b), xleb a (xmax2 a b), xleb b (xmax2 a b) & xmax2 a b = a \/ xmax2 a b = b].
Proof.
case: a => [a| | |] //; case: b => [b| | |] // _ _; rewrite /xmax2 /=.
- case E: (Rleb a b).
    split => //; [ | by right]; apply/Rleb_true; exact: Rle_refl.
  split => //; [apply/Rleb_true; exact: Rle_refl | | by left].
  by apply/Rleb_true; move/Rleb_false: E; exact: Rlt_le.
- by split=> //; [apply/Rleb_true; exact: Rle_refl | left].
- by split=> //; [apply/Rleb_true; exact: Rle_refl | right].
- by split=> //; left.
Qed.
Lemma xleb_tr a b c : notnan a -> notnan b -> notnan c -> xleb a b -> xleb b c -> xleb a c.
Proof.
case: a => [a| | |] //; case: b => [b| | |] //; case: c => [c| | |] //= _ _ _ /Rleb_true H1 /Rleb_true H2.
by apply/Rleb_true; apply: Rle_trans H1 H2.
Qed.
Lemma xmaxl_spec l : List.Forall notnan l ->
  [/\ notnan (xmaxl l), (forall x, List.In x l -> xleb x (xmaxl l)) & xmaxl l = NInf \/ List.In (xmaxl l) l].
Proof.
elim=> [|x l' Hx Hl [N B A]] /=; first by split=> //; left.
have [N' B1 B2 C] := xmax2_spec Hx N.
split=> //.
  move=> z [<- //|Hz]; apply: (xleb_tr _ N N' (B z Hz) B2).
  by move/List.Forall_forall: Hl; apply.
case: C => ->; first by right; left.
by case: A => [->|A]; [left|right; right].
Qed.

Lemma rat_notnan D s y : notnan (rat D s y).
Proof. by rewrite /rat; case: (Rltb _ _). Qed.

Lemma dot_damp D (l : R) s y : dot s (damp D l s y) = dot s y + l * init_curv D s.
Proof.
rewrite /damp dotDr; congr (_ + _); rewrite /dot /init_curv big_distrr /=; apply: eq_bigr => i _.
by rewrite mxE; toR; ring.
Qed.

Lemma lambd_spec D (r : R) ss ys : let l := lambd D (Some r) ss ys in
  [/\ Rle 0 l,
      (forall sy, List.In sy (zip ss ys) -> Rle 1e-10 (init_curv D sy.1) ->
         Rle (Rmult r (init_curv D sy.1)) (dot sy.1 (damp D l sy.1 sy.2))) &
      l = 0 \/ exists sy, [/\ List.In sy (zip ss ys), Rle 1e-10 (init_curv D sy.1) &
                           dot sy.1 (damp D l sy.1 sy.2) = Rmult r (init_curv D sy.1)]].
Proof.
rewrite /lambd; set rs := map _ _.
have NN : List.Forall notnan rs.
  by apply/List.Forall_forall => x; rewrite /rs => /List.in_map_iff [sy [<- _]]; exact: rat_notnan.
have [N B A] := xmaxl_spec NN.
have Hin : forall sy, List.In sy (zip ss ys) -> Rle 1e-10 (init_curv D sy.1) ->
   List.In (Fin (Rdiv (- dot sy.1 sy.2) (init_curv D sy.1))) rs.
  move=> sy Hsy Hc; apply/List.in_map_iff; exists sy; split => //.
  by rewrite /rat; case E: (Rltb _ _) => //; move/Rltb_true: E => ?; lra.
case E: (xmaxl rs) N B A Hin => [m| | |] // _ B A Hin /=.
  set l := match _ with Fin _ => _ | _ => _ end.
  have [E0 [Em Eor]] : Rle 0 l /\ Rle (Rplus m r) l /\ (l = 0 \/ l = Rplus m r).
    rewrite /l /xmax2 /=; case V: (Rleb _ _).
      by move/Rleb_true: V => V; split=> //; split; [exact: Rle_refl | right].
    by move/Rleb_false: V => V; split; [exact: Rle_refl | split; [lra|left]].
  split=> //.
    move=> sy Hsy Hc; have := B _ (Hin _ Hsy Hc) => /Rleb_true Hm.
    rewrite dot_damp; move: Hm Hc; move: (init_curv D sy.1) (dot sy.1 sy.2) => c a Hm Hc.
    have H1 : Rle (Rplus (Rdiv (- a) c) r) l by lra.
    have H2 := Rmult_le_compat_r c _ _ (Rle_trans 0 1e-10 c ltac:(lra) Hc) H1.
    have E3 : Rmult (Rplus (Rdiv (- a) c) r) c = Rplus (- a) (Rmult r c) by field; lra.
    by toR; rewrite E3 in H2; lra.
  case: Eor => [->|El]; first by left.
  right; case: A => // /List.in_map_iff [sy [Hr Hsy]]; exists sy.
  move: Hr; rewrite /rat; case V: (Rltb _ _) => // -[Hr]; move/Rltb_false: V => V.
  split=> //; rewrite dot_damp El -Hr; move: V; move: (init_curv D sy.1) (dot sy.1 sy.2) => c a V.
  by toR; field; lra.
split; [exact: Rle_refl | | by left].
by move=> sy Hsy Hc; have := B _ (Hin _ Hsy Hc).
Qed.

(** ** Determinants *)
Lemma det_fac p q : \det (fac p q) = 1 - dot p q.
Proof.
have E1 : block_mx (1%:M : 'M[R]_d) p q^T (1%:M : 'M[R]_1)
  = block_mx 1%:M 0 q^T 1%:M *m block_mx 1%:M p 0 (1%:M - q^T *m p).
  by rewrite mulmx_block !mul1mx !mulmx0 !mul0mx !mulmx1 !addr0 addrC subrK.
have E2 : block_mx (1%:M : 'M[R]_d) p q^T (1%:M : 'M[R]_1)
  = block_mx 1%:M p 0 1%:M *m block_mx (fac p q) 0 q^T 1%:M.
  by rewrite mulmx_block !mul1mx !mulmx0 !mul0mx !mulmx1 !add0r /fac subrK.
have := congr1 determinant E1; rewrite E2 !det_mulmx !det_lblock !det_ublock !det1 !mul1r !mulr1.
rewrite [q^T *m p]dot11 dotC => ->.
by rewrite det_mx11 !mxE eqxx !mulr1n.
Qed.

Lemma det_prodmx l : \det (prodmx l) = \prod_(pq <- l) (1 - dot pq.1 pq.2).
Proof.
elim: l => [|pq l IH] /=; first by rewrite det1 big_nil.
by rewrite det_mulmx IH det_fac big_cons mulrC.
Qed.

Lemma det_dg D : \det (dg D) = \prod_i dvec D i ord0.
Proof. by rewrite /dg det_diag; apply: eq_bigr => i _; rewrite mxE. Qed.

Lemma ln_abs_prod (I : Type) (l : seq I) (F : I -> R) :
  \prod_(x <- l) F x <> 0 -> ln (Rabs (\prod_(x <- l) F x)) = \sum_(x <- l) ln (Rabs (F x)).
Proof.
elim: l => [|x l IH]; first by rewrite !big_nil Rabs_R1 ln_1.
rewrite !big_cons => /eqP; rewrite mulf_eq0 negb_or => /andP [/eqP Hx /eqP Hl].
rewrite -IH //  Rabs_mult ln_mult //; exact: Rabs_pos_lt.
Qed.
End P.
