(** Lemmas for C105 and C106. *)
From Coq Require Import Reals List Lra.
From mathcomp Require Import ssreflect ssrfun ssrbool eqtype ssrnat seq path choice fintype bigop ssralg matrix.
From Verif Require Import RStruct XR Keys McmcModel HmcModel HmcSpec HmcProofs BfgsModel BfgsSpec BfgsProofs BfgsProps
  QnMemModel QnMemProps VolSpec VolProofs VolProps QnRevModel.
Set Implicit Arguments.
Unset Strict Implicit.
Import GRing.Theory.
Local Open Scope ring_scope.

(** one pair in one dimension, one unit apart, with curvature [y] *)
Lemma quads_pair sorted (m1 m2 : mrow) (a ga y : R) :
  Rle (Rdiv 1 2) y ->
  m_value m1 0%N = a -> m_value m2 0%N = Rplus a 1 ->
  m_gprior m1 0%N = ga -> m_gprior m2 0%N = Rplus ga y ->
  (forall i, m_glik m1 i = 0) -> (forall i, m_glik m2 i = 0) ->
  m_lik m1 = Fin 0 -> m_lik m2 = Fin 0 ->
  (exists u v, [/\ m_prior m1 = Fin u, m_prior m2 = Fin v & Rlt u v]) ->
  quads 1 sorted 1 1 (Rdiv 1 2) [:: m1; m2]
  = [:: Quad (v1 (Rinv y)) (v1 (Rplus (sqrt y) y)) (v1 (Rplus (Rmult (sqrt (Rinv y)) y) 1)) (v1 1)].
Proof.
move=> Hy V1 V2 G1 G2 L1 L2 K1 K2 [u [v [P1 P2 Huv]]].
have Ev : forall f x, f 0%N = x -> ofv 1 f = v1 x by move=> f x <-; apply/colP => i; rewrite !mxE ord1.
have Hord : mem_order sorted 1 (map (to_qrow 1) [:: m1; m2]) = map (to_qrow 1) [:: m1; m2].
  rewrite /mem_order; case: sorted => //; apply: sorted_sort.
    by move=> b a' c; exact: arg_le_trans.
  rewrite /= andbT /arg_le /row_potential /= P1 P2 K1 K2 /=.
  by apply/Rleb_true; lra.
rewrite /quads /mem_pqut Hord /mem_flags /= P1 /= /row_grad /= (Ev _ _ V1) (Ev _ _ V2) (Ev _ _ G1) (Ev _ _ G2).
have E0 : forall m, (forall i, m_glik m i = 0) -> ofv 1 (m_glik m) = 0.
  by move=> m H; apply/colP => i; rewrite !mxE H.
rewrite (E0 _ L1) (E0 _ L2) scaler0 !addr0.
have Ed : forall p q : R, diffs [:: v1 p; v1 (Rplus p q)] = [:: v1 q].
  by move=> p q; rewrite /diffs /= v1_subR; congr [:: v1 _]; ring.
have El : lambd (IScalar 1 1) (Some (Rdiv 1 2)) [:: v1 1] [:: v1 y] = 0.
  rewrite /lambd /= rat1 /=; last by toR; lra.
  rewrite /xmax2 /=; case E : (Rleb 0 _) => //; move/Rleb_true: E => E; apply: Rle_antisym => //.
  have -> : Rplus (Rdiv (Ropp (Rmult 1 y)) (Rmult 1 1)) (Rdiv 1 2) = Rplus (Ropp y) (Rdiv 1 2) by toR; field.
  by toR; lra.
rewrite /bfgs_pqut /bfgs_pairs !Ed El /= damp1.
have -> : Rplus y (Rmult 0 1) = y by ring.
rewrite /bfgs_body /used /=.
have EB : sqrt_prod [:: (0 : 'cV[R]_1)] [:: 0] (sqrt_transpose_prod [:: 0] [:: 0] (v1 1) (IScalar 1 1)) (IScalar 1 1) = v1 1.
  rewrite /sqrt_prod /sqrt_transpose_prod /=; apply/colP => i; rewrite !mxE !mulr0 !subr0 !mul1r.
  by rewrite ?mulr0 ?subr0.
rewrite EB !dot_v1.
have -> : Rltb 0 (1 * y)%R by apply/Rltb_true; toR; lra.
have -> : Rltb 1e-10 (Rmin (Rabs (1 * 1)%R) (Rabs (1 * y)%R)).
  apply/Rltb_true; rewrite !mul1r; apply: Rmin_glb_lt; rewrite Rabs_right; toR; lra.
rewrite /=.
have -> : Rltb (1 * y / (1 * 1))%R 0 = false.
  by apply/Rltb_false; rewrite !mul1r divr1; lra.
congr [:: Quad _ _ _ _]; apply/colP => i; rewrite !mxE ?mul1r ?invr1 ?mulr1 //.
- congr (_ + _); congr (sqrt _); toR; field.
- congr (_ * _ + _); congr (sqrt _); toR; field; lra.
Qed.

Lemma tov_v1 (a : R) : tov (v1 a) 0%N = a.
Proof. by rewrite /tov insubT mxE. Qed.

Section Pair.
Variable sorted : bool.
Variables (m1 m2 : mrow) (a ga y : R).
Hypothesis Hy : Rle (Rdiv 1 2) y.
Hypothesis V1 : m_value m1 0%N = a.
Hypothesis V2 : m_value m2 0%N = Rplus a 1.
Hypothesis G1 : m_gprior m1 0%N = ga.
Hypothesis G2 : m_gprior m2 0%N = Rplus ga y.
Hypothesis L1 : forall i, m_glik m1 i = 0.
Hypothesis L2 : forall i, m_glik m2 i = 0.
Hypothesis K1 : m_lik m1 = Fin 0.
Hypothesis K2 : m_lik m2 = Fin 0.
Hypothesis P : exists u v, [/\ m_prior m1 = Fin u, m_prior m2 = Fin v & Rlt u v].

Lemma pair_minv p :
  qn_minv 1 (mem_pqs 1 sorted 1 1 (Rdiv 1 2)) 1 [:: m1; m2] p 0%N = Rdiv (p 0%N) y.
Proof.
rewrite /qn_minv /mem_pqs (quads_pair sorted Hy V1 V2 G1 G2 L1 L2 K1 K2 P).
rewrite /bfgs_prod /bfgs_tprod /= /vadd /vscale /= !tov_v1.
have Hs : Rmult (sqrt y) (sqrt y) = y by apply: sqrt_sqrt; lra.
have := sqrt_lt_R0 y; move: Hs; set q := sqrt y => Hs Hq; have {}Hq : Rlt 0 q by apply: Hq; lra.
rewrite -Hs; toR; field; lra.
Qed.

Lemma pair_factor z :
  bfgs_prod 1 (mem_uts 1 sorted 1 1 (Rdiv 1 2) [:: m1; m2]) 1 z 0%N = Ropp (Rmult (sqrt y) (z 0%N)).
Proof.
rewrite /mem_uts (quads_pair sorted Hy V1 V2 G1 G2 L1 L2 K1 K2 P).
rewrite /bfgs_prod /= /vadd /vscale /= !tov_v1.
have Hs : Rmult (sqrt y) (sqrt y) = y by apply: sqrt_sqrt; lra.
have := sqrt_lt_R0 y; move: Hs; set q := sqrt y => Hs Hq; have {}Hq : Rlt 0 q by apply: Hq; lra.
have -> : sqrt (Rinv y) = Rinv q by rewrite /q sqrt_inv.
rewrite -Hs; toR; field; lra.
Qed.
End Pair.

(** Products with the factors are linear, coordinate by coordinate. *)
Lemma prod_lin d (l : list (vec * vec)) diag :
  exists N : nat -> vec, forall z i, (i < d)%coq_nat -> bfgs_prod d l diag z i = vdot d (N i) z.
Proof.
have [M H] := @fold_lin d (fun x => x) l.
exists (fun i j => if insub i is Some o then tov (row o (diag *: M))^T j else 0) => z i Hi.
have Hi' : (i < d)%N by apply/ltP.
rewrite insubT vdotE ofv_tov trmxK.
have -> : bfgs_prod d l diag z i = ofv d (bfgs_prod d l diag z) (Sub i Hi') ord0 by rewrite mxE.
by rewrite /bfgs_prod H ofvZ -scalemxAr scalemxAl -row_mul [in RHS]mxE.
Qed.

(** * The products of HmcModel are those of BfgsModel *)
Section Products.
Variable d : nat.
Lemma vdot_dot a b : vdot d a b = dot (ofv d a) (ofv d b).
Proof. by rewrite vdotE mxE /dot; apply: eq_bigr => i _; rewrite !mxE. Qed.
Lemma ofv_dmul (c : R) v : ofv d (vscale c v) = dmul (dvec (IScalar d c)) (ofv d v).
Proof. by apply/colP => i; rewrite !mxE. Qed.
Lemma rev_rev A (l : seq A) : List.rev l = rev l.
Proof. by elim: l => [|x l IH] //=; rewrite IH rev_cons -cats1. Qed.
Lemma fold_ofv (f g : quad d -> 'cV[R]_d) (l : seq (quad d)) c :
  ofv d (List.fold_left (fun c pq => vadd c (vscale (Ropp (vdot d (snd pq) c)) (fst pq))) (map (fun Q => (tov (f Q), tov (g Q))) l) c)
  = foldl (fun c pq => c - dot pq.2 c *: pq.1) (ofv d c) (zip (map f l) (map g l)).
Proof.
elim: l c => [|Q l IH] c //=; rewrite IH; congr (foldl _ _ _).
by rewrite ofvD ofvZ vdot_dot !ofv_tov -scaleNr.
Qed.
Lemma fold_ofv_rev (f g : quad d -> 'cV[R]_d) (l : seq (quad d)) c :
  ofv d (List.fold_left (fun c pq => vadd c (vscale (Ropp (vdot d (fst pq) c)) (snd pq))) (List.rev (map (fun Q => (tov (f Q), tov (g Q))) l)) c)
  = foldl (fun c pq => c - dot pq.1 c *: pq.2) (ofv d c) (rev (zip (map f l) (map g l))).
Proof.
have -> : zip (map f l) (map g l) = map (fun Q => (f Q, g Q)) l by elim: l => //= Q l ->.
rewrite rev_rev -!map_rev; elim: (rev l) c => [|Q m IH] c //=; rewrite IH; congr (foldl _ _ _).
by rewrite ofvD ofvZ vdot_dot !ofv_tov -scaleNr.
Qed.
Lemma prod_ofv (f g : quad d -> 'cV[R]_d) l c z :
  ofv d (bfgs_prod d (map (fun Q => (tov (f Q), tov (g Q))) l) c z) = sqrt_prod (map f l) (map g l) (ofv d z) (IScalar d c).
Proof. by rewrite /bfgs_prod fold_ofv ofv_dmul. Qed.
Lemma tprod_ofv (f g : quad d -> 'cV[R]_d) l c z :
  ofv d (bfgs_tprod d (map (fun Q => (tov (f Q), tov (g Q))) l) c z) = sqrt_transpose_prod (map f l) (map g l) (ofv d z) (IScalar d c).
Proof. by rewrite /bfgs_tprod ofv_dmul fold_ofv_rev. Qed.

Lemma quads_inverse sorted T diag r mem z : diag <> 0 :> R ->
  let l := quads d sorted T diag r mem in
  sqrt_transpose_prod (map (@qp d) l) (map (@qq d) l) (sqrt_prod (map (@qu d) l) (map (@qt d) l) z (IScalar d diag)) (IScalar d (Rinv diag)) = z.
Proof.
move=> Hd; rewrite /quads.
have HD : forall i, dvec (IScalar d diag) i ord0 <> 0 by move=> i; rewrite mxE.
case E : (mem_pqut _ _ _ _ _) => [out|] /=.
  by have [H _ _ _] := C34_inverse HD E z.
rewrite /sqrt_transpose_prod /sqrt_prod /=.
apply/colP => i; rewrite !mxE mulrA; have -> : (Rinv diag : R) * diag = 1 by exact: Rinv_l.
by rewrite mul1r.
Qed.
Lemma metric sorted T diag r mem z : diag <> 0 :> R ->
  let f := bfgs_prod d (mem_uts d sorted T diag r mem) diag z in
  vdot d f (qn_minv d (mem_pqs d sorted T diag r) diag mem f) = vdot d z z.
Proof.
move=> Hd /=; rewrite vdot_dot /qn_minv /mem_uts /mem_pqs.
rewrite prod_ofv prod_ofv tprod_ofv prod_ofv [LHS]C34_adjoint quads_inverse //.
by rewrite vdot_dot.
Qed.
End Products.
