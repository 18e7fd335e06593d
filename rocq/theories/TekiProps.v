(** Theorems on the updates of ensemble Kalman inversion: C25 (span), C79, C80. *)
From Coq Require Import Reals Lra.
From mathcomp Require Import ssreflect ssrfun ssrbool eqtype ssrnat seq choice fintype bigop ssralg matrix.
From Verif Require Import XR Keys RStruct BfgsSpec BfgsProofs LinAlg LoopSpec TekiModel TekiSpec TekiProofs.
Set Implicit Arguments.
Unset Strict Implicit.
Import GRing.Theory.
Local Open Scope ring_scope.

(** ** Ensembles of four particles in one dimension *)
Definition mk4 (a b c d : R) : 'M[R]_(4, 1) := \matrix_(i, j) nth 0 [:: a; b; c; d] i.
Lemma sum4 (F : 'I_4 -> R) :
  \sum_i F i = F (@Ordinal 4 0 isT) + (F (@Ordinal 4 1 isT) + (F (@Ordinal 4 2 isT) + F (@Ordinal 4 3 isT))).
Proof.
rewrite !big_ord_recl big_ord0 addr0; do !congr (_ + _); congr F; exact: val_inj.
Qed.
Lemma mean4 a b c d : sample_mean (mk4 a b c d) = (Rdiv (a + b + c + d) 4)%:M.
Proof.
rewrite [LHS]mx11_scalar; congr (_%:M); rewrite mxE sum4 !mxE /=; toR; field.
Qed.
Lemma cov4 a b c d a' b' c' d' :
  let m := Rdiv (a + b + c + d) 4 in let m' := Rdiv (a' + b' + c' + d') 4 in
  sample_cov (mk4 a b c d) (mk4 a' b' c' d')
  = (Rdiv (Rplus ((a - m) * (a' - m')) (Rplus ((b - m) * (b' - m')) (Rplus ((c - m) * (c' - m')) ((d - m) * (d' - m'))))) 3)%:M.
Proof.
move=> m m'; rewrite [LHS]mx11_scalar; congr (_%:M); rewrite mxE sum4 /deviation !mean4 !mxE /= -/m -/m'.
rewrite !mulr1n; toR; field.
Qed.

(** * C25: particles move within the span *)
Theorem C25_span :
  forall n dx dy lik normals data nugget next (s : tstate n dx dy) e,
  moves_in_span (value s) (value (update lik normals data nugget next s e).1).
Proof. by move=> n dx dy lik nor data nu next s e; exact: span_ok. Qed.
Print Assumptions C25_span.

(** * C79: the matrices to be factorised and inverted are positive definite *)
(** For every ensemble and every positive nugget: the matrix regularised by the
    nugget before each inverse or Cholesky factor is positive definite, so all
    the inverses are inverses and the perturbations are finite; the conditional
    covariance itself is positive semi-definite. *)
Theorem C79_definite :
  forall n dx dy nugget alph (X : 'M[R]_(n, dx)) (Y : 'M[R]_(n, dy)),
  Rlt 0 nugget -> Rle 0 alph ->
  posdef (scov X X + nugget%:M)
  /\ psd (cov_y_given_x nugget X Y)
  /\ is_cholesky (y_given_x_chol nugget X Y) (cov_y_given_x nugget X Y + nugget%:M)
  /\ prec_y_given_x nugget X Y *m (cov_y_given_x nugget X Y + nugget%:M) = 1%:M
  /\ posdef (cov_alph nugget alph X Y + nugget%:M)
  /\ teki_gain nugget alph X Y *m (cov_alph nugget alph X Y + nugget%:M) = scov X Y.
Proof.
move=> n dx dy nu a X Y Hnu Ha.
have P1 := cyx_posdef Hnu X Y; have P2 := cov_alph_posdef Hnu X Y Ha.
split; first exact: posdef_reg.
split; first exact: cyx_psd.
split; first exact: chol_correct.
split; first by rewrite /prec_y_given_x mulVmx //; exact: posdef_unit.
by split=> //; rewrite /teki_gain mulmxKV //; exact: posdef_unit.
Qed.
Print Assumptions C79_definite.

(** The covariances are the unbiased sample covariances. *)
Theorem C79_covariances :
  forall n m p (A : 'M[R]_(n, m)) (B : 'M[R]_(n, p)), (1 < n)%N ->
  scov A B = sample_cov A B.
Proof. by move=> n m p A B Hn; exact: scovE. Qed.
Print Assumptions C79_covariances.

(** Without the nugget the matrix to be inverted can be singular: two particles
    in two dimensions. *)
Theorem C79_zero_nugget_refuted :
  exists n dx (X : 'M[R]_(n, dx)), (1 < n)%N /\ ~ posdef (scov X X + 0%:M).
Proof.
exists 2%N, 2%N, (\matrix_(i, j) (if i == 0%N :> nat then 1 else 0)); split=> // [[_ P]].
set X := (\matrix_(i, j) _) in P.
set z : 'cV[R]_2 := \col_i (if i == 0%N :> nat then 1 else - 1).
have Z : z <> 0.
  by move/colP/(_ ord0); rewrite !mxE /= => /eqP; rewrite oner_eq0.
have := P z Z; rewrite bilE raddf0 addr0 /scov -mulmxA.
have -> : sdev X *m z = 0.
  rewrite -sdevM //; have -> : X *m z = 0.
    apply/colP=> i; rewrite !mxE !big_ord_recl big_ord0 !mxE /=; case: ifP => _; rewrite ?mul0r ?mul1r ?addr0 //.
    by rewrite subrr.
  by rewrite /sdev /colmean mulmx0 scaler0 /each mulmx0 subr0 scaler0.
by rewrite mulmx0 dot0r => /Rlt_irrefl.
Qed.
Print Assumptions C79_zero_nugget_refuted.

(** * C80: exactness for linear models *)
(** Over any number of updates with zero nugget, steps of at most 1 and, at each
    update, simulated data with exactly linear mean and noise covariance [V] and
    standardised perturbations (all by sample moments), the sample mean and
    covariance of the ensemble are those of the Gaussian posterior at the
    temperature reached. *)
Theorem C80_linear_exact_partial :
  forall n dx dy lik normals data next (H : 'M[R]_(dy, dx)) (V : 'M[R]_dy) (init : tstate n dx dy * textra) m,
  let it j := iterate (update lik normals data 0 next) j init in
  let X j := value (it j).1 in
  (1 < n)%N -> posdef V -> posdef (sample_cov (X 0%N) (X 0%N)) ->
  (forall j, (j < m)%N ->
     matched H V (X j) (simulated (it j).1) (normals (KSplit (t_key (it j).2) (n + 2) n))
     /\ Rlt (temperature (it j).1) (temperature (it j.+1).1)
     /\ Rle (temperature (it j.+1).1) (Rplus (temperature (it j).1) 1)) ->
  posdef (sample_cov (X m) (X m))
  /\ is_tempered_posterior (sample_mean (X 0%N)) (sample_cov (X 0%N) (X 0%N)) H V data
       (temperature (it m).1 - temperature (it 0%N).1) (sample_mean (X m)) (sample_cov (X m) (X m)).
Proof.
move=> n dx dy lik nor data next H V init m it X Hn HV H0; elim: m => [|m IH] Hm.
  split=> //; rewrite Rminus_diag_eq //.
  exact: tempered_zero.
have [Pm Tm] := IH (fun j Hj => Hm j (ltn_trans Hj (ltnSn m))).
have [M [L1 L2]] := Hm m (ltnSn m).
set t := temperature (it m).1 in L1 L2 Tm; set t' := temperature (it m.+1).1 in L1 L2 *.
set a := alph_of t t'.
have Ea : Rinv a = Rminus t' t by rewrite /a /alph_of; field; lra.
have Ha : Rle 1 a.
  rewrite /a /alph_of; apply: (Rmult_le_reg_r (t' - t)); first by lra.
  rewrite /Rdiv Rmult_assoc Rinv_l; lra.
rewrite -scovE // in Pm.
have := lg_step (X := X m) Hn data Pm HV Ha M.
have -> : moved data 0 a (X m) (simulated (it m).1) (nor (KSplit (t_key (it m).2) (n + 2) n)) = X m.+1.
  by rewrite /X /it /= /a /t /t'.
rewrite !scovE // Ea => [[P1 T1]]; split=> //.
have -> : Rminus t' (temperature (it 0%N).1) = Rplus (Rminus t (temperature (it 0%N).1)) (Rminus t' t) by ring.
exact: tempered_comp Tm T1.
Qed.
Print Assumptions C80_linear_exact_partial.

Lemma sqrt3 : Rmult (sqrt 3) (sqrt 3) = IZR 3.
Proof. by rewrite sqrt_sqrt //; lra. Qed.

(** four particles at 1, 1, -1, -1 observed with noise 1, -1, 1, -1 *)
Definition exX := mk4 1 1 (- 1) (- 1).
Definition exY := mk4 (1 + 1) 0 0 (- (1 + 1)).
Definition exZ := let q := Rdiv (sqrt 3) 2 in mk4 q (- q) (- q) q.
Definition exV : 'M[R]_1 := (Rdiv 4 3)%:M.

Lemma mk4_sub a b c d a' b' c' d' : mk4 a b c d - mk4 a' b' c' d' = mk4 (a - a') (b - b') (c - c') (d - d').
Proof.
by apply/matrixP => i j; rewrite !mxE; case: i => [[|[|[|[|i]]]] Hi].
Qed.
Lemma mk4_scale (k : R) a b c d : k *: mk4 a b c d = mk4 (k * a) (k * b) (k * c) (k * d).
Proof.
by apply/matrixP => i j; rewrite !mxE; case: i => [[|[|[|[|i]]]] Hi].
Qed.

Lemma ex_matched : matched (1%:M : 'M[R]_1) exV exX exY exZ.
Proof.
have S3 := sqrt3.
rewrite /matched trmx1 mulmx1 /exX /exY /exZ mk4_sub !mean4 !cov4.
have Z0 (r : R) : r = IZR 0 -> r%:M = 0 :> 'M[R]_1 by move=> ->; exact: raddf0.
split; first by apply: Z0; toR; field.
split; first by apply: Z0; toR; field.
split; first by congr (_%:M); toR; field.
split; first by apply: Z0; toR; field.
split; first by apply: Z0; toR; field.
split; first by apply: Z0; toR; field.
congr (_%:M); toR; move: (sqrt 3) S3 => q S3.
transitivity (Rdiv (Rmult q q) 3); first by field.
by rewrite S3; field.
Qed.

Lemma ex_posV : posdef exV.
Proof. by apply: posdef_scalar; lra. Qed.
Lemma ex_covX : sample_cov exX exX = exV.
Proof. by rewrite /exX /exV cov4; congr (_%:M); toR; field. Qed.

(** One step to temperature 1 halves the variance, as the posterior does. *)
Example C80_example :
  let upd := update (fun x k => x) (fun k => exZ) 0 0 (fun _ _ _ => IZR 1) in
  let init := (TState exX exY 0, TExtra 0 (KRoot 0)) in
  let X j := value (iterate upd j init).1 in
  (forall j, (j < 1)%N ->
     matched (1%:M : 'M[R]_1) exV (X j) (simulated (iterate upd j init).1) exZ
     /\ Rlt (temperature (iterate upd j init).1) (temperature (iterate upd j.+1 init).1)
     /\ Rle (temperature (iterate upd j.+1 init).1) (Rplus (temperature (iterate upd j init).1) 1))
  /\ sample_cov (X 1%N) (X 1%N) = (Rdiv 2 3)%:M.
Proof.
move=> upd init X.
have Hm : forall j, (j < 1)%N ->
     matched (1%:M : 'M[R]_1) exV (X j) (simulated (iterate upd j init).1) exZ
     /\ Rlt (temperature (iterate upd j init).1) (temperature (iterate upd j.+1 init).1)
     /\ Rle (temperature (iterate upd j.+1 init).1) (Rplus (temperature (iterate upd j init).1) 1).
  case=> // _; split; first exact: ex_matched.
  by split; [change (Rlt 0 1) | change (Rle 1 (Rplus 0 1))]; lra.
split=> //.
have PX : posdef (sample_cov (X 0%N) (X 0%N)) by rewrite ex_covX; exact: ex_posV.
have [_ [T _]] := C80_linear_exact_partial (init := init) isT ex_posV PX Hm.
have {T} : sample_cov (X 1%N) (X 1%N) *m (invmx (sample_cov exX exX)
   + Rminus 1 0 *: ((1%:M)^T *m invmx exV *m 1%:M)) = 1%:M := T.
rewrite ex_covX trmx1 mul1mx mulmx1 /exV invmx_scalar scale_scalar_mx -raddfD /=.
rewrite [sample_cov _ _]mx11_scalar; move: (sample_cov _ _ _ _) => c.
by rewrite -scalar_mxM => /matrixP/(_ ord0 ord0); rewrite !mxE /= !mulr1n; toR => E; congr (_%:M); lra.
Qed.

Lemma ex_moved Z : moved 0 0 (Rdiv 1 2) exX exY Z = mk4 (Rdiv (-1) 3) 1 (- 1) (Rdiv 1 3).
Proof.
have E0 : each 4 (0 : 'rV[R]_1) = 0 by rewrite /each mulmx0.
rewrite /moved /perturbs; have /Rleb_false -> : Rlt (Rdiv 1 2) 1 by lra.
have -> : teki_gain 0 (Rdiv 1 2) exX exY = (Rdiv 2 3)%:M.
  rewrite /teki_gain /cov_alph /cov_y_given_x !scovE // /exX /exY !cov4 raddf0 !addr0.
  rewrite tr_scalar_mx !invmx_scalar -!scalar_mxM -raddfB /= scale_scalar_mx -raddfD /= invmx_scalar -scalar_mxM.
  by congr (_%:M); toR; field.
rewrite tr_scalar_mx mul_mx_scalar addr0 E0 sub0r scalerN -scaleNr mk4_scale /exX.
by apply/matrixP=> i j; rewrite !mxE; case: i => [[|[|[|[|i]]]] Hi] //=; toR; field.
Qed.

(** A step of more than 1 makes [alph < 1]; the perturbations are then NaN and
    replaced by zeros, and the result is not the tempered posterior: from
    temperature 0 to 2 the variance 4/3 becomes 20/27 instead of 4/9. *)
Theorem C80_large_step_refuted :
  exists (next : tstate 4 1 1 -> nat -> 'M[R]_1 -> R) (H V : 'M[R]_1) (s : tstate 4 1 1) (Z : 'M[R]_(4, 1)),
  posdef V /\ posdef (sample_cov (value s) (value s)) /\ matched H V (value s) (simulated s) Z
  /\ forall lik e,
     let s' := (update lik (fun _ => Z) 0 0 next s e).1 in
     Rlt (temperature s) (temperature s')
     /\ ~ is_tempered_posterior (sample_mean (value s)) (sample_cov (value s) (value s)) H V 0
            (temperature s' - temperature s) (sample_mean (value s')) (sample_cov (value s') (value s')).
Proof.
exists (fun _ _ _ => IZR 2), 1%:M, exV, (TState exX exY 0), exZ.
rewrite [value _]/= [simulated _]/= ex_covX; split; first exact: ex_posV.
split; first exact: ex_posV.
split; first exact: ex_matched.
move=> lik e /=; split; first by change (Rlt 0 2); lra.
have -> : alph_of 0 (IZR 2) = Rdiv 1 2 by rewrite /alph_of; congr (Rdiv 1 _); exact: Rminus_0_r.
have -> : moved 0 0 (Rdiv 1 2) exX exY exZ = mk4 (Rdiv (-1) 3) 1 (- 1) (Rdiv 1 3).
  by exact: ex_moved.
rewrite cov4 => [[T _]]; move: T.
rewrite trmx1 mul1mx mulmx1 /exV invmx_scalar scale_scalar_mx -raddfD /= -scalar_mxM => /matrixP/(_ ord0 ord0).
rewrite !mxE /= !mulr1n; toR => E; lra.
Qed.
Print Assumptions C80_large_step_refuted.

(** For the four particles above with nugget 1/3: the conditional covariance is
    8/3 - (4/3)^2 / (5/3) = 8/5. *)
Example C79_example : scov exX exY = exV /\ cov_y_given_x (Rdiv 1 3) exX exY = (Rdiv 8 5)%:M.
Proof.
rewrite /cov_y_given_x !scovE // /exX /exY /exV !cov4; split; first by congr (_%:M); toR; field.
rewrite tr_scalar_mx -raddfD /= invmx_scalar -!scalar_mxM -raddfB /=.
by congr (_%:M); toR; field.
Qed.

(** Particle 0 of the four moves by -4/3 times its deviation. *)
Example C25_span_example :
  let X' := moved 0 0 (Rdiv 1 2) exX exY exZ in
  X' ord0 ord0 - exX ord0 ord0 = Rmult (Rdiv (-4) 3) (deviation exX ord0 ord0).
Proof. by rewrite /= ex_moved /deviation /exX mean4 !mxE /= mulr1n; toR; field. Qed.
