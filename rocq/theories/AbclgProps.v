(** C98: the linear Gaussian inverse problem as an ABC scenario. *)
From Coq Require Import Reals Lra.
From mathcomp Require Import ssreflect ssrfun ssrbool eqtype ssrnat seq choice fintype bigop ssralg matrix.
From Verif Require Import XR RStruct BfgsModel BfgsSpec BfgsProofs LinAlg GaussModel GaussSpec GaussProofs GaussProps
  KalmanSpec KalmanProofs NlgSpec NlgProofs AbclgModel.
Set Implicit Arguments.
Unset Strict Implicit.
Import GRing.Theory.
Local Open Scope ring_scope.

(** The samplers draw from N(m, P) and from N(H x, V), for covariance matrices
    and for numbers standing for multiples of the identity; the distance is
    zero exactly when the data is met. *)
Theorem C98_samplers d e (m : 'cV[R]_d) (a : par d) (H : 'M[R]_(e, d)) (b : par e) y :
  posdef (pmat a) -> posdef (pmat b) -> (forall u, a <> PVector u) -> (forall u, b <> PVector u) ->
  let S := Abclg m (full_covariance a) H (full_covariance b) y in
  (exists f, (forall z, prior_sample S z = Some (f z)) /\ drawn_from f m (pmat a))
  /\ (forall x, exists f, (forall z, likelihood_sample S x z = Some (f z)) /\ drawn_from f (H *m x) (pmat b))
  /\ (forall s, Rle 0 (distance_function y s) /\ (distance_function y s = 0 <-> s = full_vector y)).
Proof.
move=> Ha Hb Na Nb S.
have E : forall n (p : par n), (forall u, p <> PVector u) -> full_covariance p = PMatrix (pmat p).
  by move=> n [c|u|M] // N; case: (N u).
have G : forall n (p : par n) mu, posdef (pmat p) -> (forall u, p <> PVector u) ->
    exists f, (forall z, sqrt_sample (full_covariance p) mu z = Some (f z)) /\ drawn_from f mu (pmat p).
  move=> n p mu Hp Np; exists (fun z => mu + chol (pmat p) *m z); split; first by move=> z; rewrite E.
  apply: (@drawn_affine _ (chol (pmat p))); first exact: chol_unit.
    by have [_ [_ ->]] := chol_correct Hp.
  by move=> z; rewrite addrC.
split; first exact: G. split; first by move=> x; exact: G.
move=> s; rewrite /distance_function; split; first exact: sqrt_pos.
have P : forall i : 'I_e, Rle 0 ((s i ord0 - full_vector y i ord0) ^+ 2).
  by move=> i; rewrite expr2; exact: Rle_0_sqr.
split=> [Z|->]; last first.
  rewrite big1 ?sqrt_0 // => i _; by rewrite subrr expr0n.
have Z' : \sum_i (s i ord0 - full_vector y i ord0) ^+ 2 = 0.
  apply: sqrt_eq_0 => //; elim/big_rec: _ => [|i u _ Hu]; first exact: Rle_refl.
  by apply: Rplus_le_le_0_compat => //; exact: P.
apply/colP => i.
have Zi : (s i ord0 - full_vector y i ord0) ^+ 2 = 0.
  move: Z'; rewrite (bigD1 i) //= => Z'.
  have Q : Rle 0 (\sum_(j < e | j != i) (s j ord0 - full_vector y j ord0) ^+ 2).
    elim/big_rec: _ => [|j u _ Hu]; first exact: Rle_refl.
    by apply: Rplus_le_le_0_compat => //; exact: P.
  have K : forall r t : R, Rplus r t = IZR 0 -> Rle 0 r -> Rle 0 t -> r = IZR 0 by move=> r t; lra.
  exact: (K _ _ Z' (P i) Q).
by move/eqP: Zi; rewrite expf_eq0 /= subr_eq0 => /eqP.
Qed.
Print Assumptions C98_samplers.

Lemma bayes_ln (g h c G : R) : Rlt 0 g -> Rlt 0 h -> Rlt 0 c -> Rlt 0 G -> Rmult g h = Rmult c G ->
  Rplus (Ropp (ln g)) (Ropp (ln h)) = Rminus (Ropp (ln G)) (ln c).
Proof. by move=> Hg Hh Hc HG /(congr1 ln); rewrite !ln_mult // => ?; lra. Qed.
Lemma conditional_sum d e (m : 'cV[R]_d) P (H : 'M[R]_(e, d)) V y mu C c x : posdef P -> posdef V ->
  conditional m P H V y mu C c -> Rplus (nld x m P) (nld y (H *m x) V) = Rminus (nld x mu C) (ln c).
Proof. by move=> HP HV [HC [Hc Q]]; apply: bayes_ln => //; try exact: gd_gt0; exact: Q. Qed.

(** For diagonal covariances the two potentials are those of the two laws, and
    their sum is the potential of the exact posterior up to the evidence. *)
Theorem C98_posterior_partial d e (m : 'cV[R]_d) (a : par d) v (H : 'M[R]_(e, d)) (b : par e) w y :
  pmat a = diag_mx v^T -> pmat b = diag_mx w^T -> (forall i, Rlt 0 (v i ord0)) -> (forall i, Rlt 0 (w i ord0)) ->
  (forall u, a <> PVector u) -> (forall u, b <> PVector u) ->
  let S := Abclg m (full_covariance a) H (full_covariance b) (inr y) in
  exists mu C c, conditional m (pmat a) H (pmat b) y mu C c
    /\ forall x, exists p l, prior_potential S x = GNum _ p /\ likelihood_potential S x = Some (GNum _ l)
       /\ p = nld x m (pmat a) /\ l = nld y (H *m x) (pmat b) /\ Rplus p l = Rminus (nld x mu C) (ln c).
Proof.
move=> Ea Eb Hv Hw Na Nb S.
have E : forall n (p : par n), (forall u, p <> PVector u) -> full_covariance p = PMatrix (pmat p).
  by move=> n [k|u|M] // N; case: (N u).
have HP : posdef (pmat a) by rewrite Ea; exact: posdef_diag.
have HV : posdef (pmat b) by rewrite Eb; exact: posdef_diag.
have [mu [C [c Cd]]] : exists mu C c, conditional m (pmat a) H (pmat b) y mu C c.
  by do 3 eexists; exact: (conditional_ok m H y HP HV).
exists mu, C, c; split; first exact: Cd.
move=> x; exists (nld x m (pmat a)), (nld y (H *m x) (pmat b)).
split; first by rewrite /prior_potential /= E // Ea; exact: (C38_diagonal_partial x m Hv).
split; first by rewrite /likelihood_potential /= E // Eb; congr Some; exact: (C38_diagonal_partial y (H *m x) Hw).
do 2!split=> //.
exact: conditional_sum.
Qed.
Print Assumptions C98_posterior_partial.

(** Not for other covariance matrices: with prior covariance [[1,1],[1,2]] the
    sum of the potentials differs from the posterior's at some point. *)
Theorem C98_posterior_refuted : exists (P : 'M[R]_2) m y x mu C c, posdef P
  /\ conditional m P 1%:M 1%:M y mu C c
  /\ let S := Abclg m (PMatrix P) 1%:M (PMatrix 1%:M) (inr y) in
     exists p l, prior_potential S x = GNum _ p /\ likelihood_potential S x = Some (GNum _ l)
     /\ Rlt (Rplus p l) (Rminus (nld x mu C) (ln c)).
Proof.
have [P [x [m [HP [p [Ep Lp]]]]]] := C38_refuted.
have H1 : posdef (1%:M : 'M[R]_2).
  have := @posdef_diag 2 (const_mx 1) (fun i => _); rewrite trmx_const diag_const_mx; apply.
  by move=> i; rewrite mxE; exact: Rlt_0_1.
have [mu [C [c Cd]]] : exists mu C c, conditional m P 1%:M 1%:M x mu C c.
  by do 3 eexists; exact: (conditional_ok m 1%:M x HP H1).
exists P, m, x, x, mu, C, c; split; first exact: HP. split; first exact: Cd.
exists p, (nld x (1%:M *m x) 1%:M); split; first exact: Ep.
have E1 : (1%:M : 'M[R]_2) = diag_mx (const_mx 1 : 'cV[R]_2)^T by rewrite trmx_const diag_const_mx.
split.
  have P1 : forall i, Rlt 0 ((const_mx 1 : 'cV[R]_2) i ord0) by move=> i; rewrite mxE; exact: Rlt_0_1.
  have K := C38_diagonal_partial x (1%:M *m x) P1; rewrite -E1 in K.
  by rewrite /likelihood_potential /=; congr Some; exact: K.
rewrite -(conditional_sum x HP H1 Cd); exact: Rplus_lt_compat_r.
Qed.
Print Assumptions C98_posterior_refuted.

(** Covariances given as vectors: the draw moves every coordinate by the same
    amount, so in two or more dimensions it is a draw from no Gaussian law. *)
Theorem C98_vector_refuted d e (m v : 'cV[R]_d.+2) (H : 'M[R]_(e, d.+2)) b y :
  let S := Abclg m (PVector v) H b y in
  (forall z s i j, prior_sample S z = Some s -> s i ord0 - m i ord0 = s j ord0 - m j ord0)
  /\ forall f mu C, (forall z, prior_sample S z = Some (f z)) -> ~ drawn_from f mu C.
Proof.
move=> S; have A : forall z s i j, prior_sample S z = Some s -> s i ord0 - m i ord0 = s j ord0 - m j ord0.
  by move=> z s i j [<-]; rewrite !mxE !(addrC (m _ _)) !addrK.
split=> // f mu C Hf [B [U D]].
have F : forall (z : 'cV[R]_d.+2) i j, (B *m z) i ord0 = (B *m z) j ord0.
  move=> z i j; have [E1 _] := D z; have [E0 _] := D 0.
  rewrite mulmx0 add0r in E0.
  have K i' : (B *m z) i' ord0 = (f z i' ord0 - m i' ord0) - (f 0 i' ord0 - m i' ord0).
    by rewrite E1 E0 [(_ + mu) i' ord0]mxE opprB addrA subrK addrK.
  by rewrite !K (A z (f z) i j (Hf z)) (A 0 (f 0) i j (Hf 0)).
have := F (invmx B *m delta_mx ord0 ord0) ord0 (lift ord0 ord0).
rewrite mulKVmx // !mxE !eqxx /= => /eqP; by rewrite oner_eq0.
Qed.
Print Assumptions C98_vector_refuted.

(** Data left at its default, a number: the constant of the likelihood potential
    is that of one observation whatever their number. *)
Theorem C98_number_data_refuted d e (m : 'cV[R]_d) a (H : 'M[R]_(e, d)) (w : 'cV[R]_e) (c : R) x :
  (forall i, Rlt 0 (w i ord0)) ->
  exists l, likelihood_potential (Abclg m a H (PMatrix (diag_mx w^T)) (inl c)) x = Some (GNum _ l)
  /\ l = Rminus (nld (const_mx c) (H *m x) (diag_mx w^T)) (Rmult (Rminus (INR e) 1) (Rdiv (ln (Rmult 2 PI)) 2)).
Proof.
move=> Hw; have := C38_diagonal_partial (const_mx c) (H *m x) Hw.
rewrite /model_potential /gaussian_potential /= /default_det /add_neg_log_z /sqrt_branch /= => [[E]].
eexists; split; first reflexivity.
rewrite -E /neg_log_z1 /half; set q := vectorised_potential _ _ _.
move: q (ln (\det _)^-1) (ln (2 * PI)) => q u t; cbn [INR]. toR; field.
Qed.
Print Assumptions C98_number_data_refuted.

(** The dimension is found as soon as one of the four arguments is an array (of
    the right shape); with numbers only, as with the default arguments, the
    constructor raises. *)
Theorem C98_dimension_partial d e pm pc lm lc :
  pm \in [:: None; Some [:: d]] -> pc \in [:: None; Some [:: d; d]] -> lm \in [:: None; Some [:: e; d]] ->
  lc \in [:: None; Some [:: e; e]] -> (lm = None -> d = e) ->
  [|| pm != None, pc != None, lm != None | lc != None] -> abclg_dim pm pc lm lc = Some d.
Proof.
rewrite !inE => /orP [] /eqP -> /orP [] /eqP -> /orP [] /eqP -> /orP [] /eqP -> //= E _.
by rewrite /abclg_dim /= E.
Qed.
Print Assumptions C98_dimension_partial.
Theorem C98_default_refuted : abclg_dim None None None None = None.
Proof. by []. Qed.
Print Assumptions C98_default_refuted.

(** Two unknowns, one observation of their sum. *)
Example C98_example :
  let S := Abclg (cv2 1 3) (full_covariance (PScalar 2 (IZR 2))) (const_mx 1 : 'M[R]_(1, 2)) (full_covariance (PScalar 1 1)) (inr (const_mx 2)) in
  exists mu C c, conditional (cv2 1 3) (pmat (PScalar 2 (IZR 2))) (const_mx 1) (pmat (PScalar 1 1)) (const_mx 2) mu C c
  /\ forall x, exists p l, prior_potential S x = GNum _ p /\ likelihood_potential S x = Some (GNum _ l)
     /\ Rplus p l = Rminus (nld x mu C) (ln c).
Proof.
move=> S.
have [||||//|//|mu [C [c [Cd Q]]]] := @C98_posterior_partial 2 1 (cv2 1 3) (PScalar 2 (IZR 2)) (const_mx (IZR 2)) (const_mx 1) (PScalar 1 1) (const_mx 1) (const_mx 2).
- by rewrite trmx_const diag_const_mx.
- by rewrite trmx_const diag_const_mx.
- by move=> i; rewrite mxE; lra.
- by move=> i; rewrite mxE; exact: Rlt_0_1.
exists mu, C, c; split; first exact: Cd.
by move=> x; have [p [l [E1 [E2 [_ [_ E3]]]]]] := Q x; exists p, l.
Qed.
