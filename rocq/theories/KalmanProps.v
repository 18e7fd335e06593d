(** C39, C40, C41: the Kalman filter and smoother. *)
From Coq Require Import Reals Lra.
From mathcomp Require Import ssreflect ssrfun ssrbool eqtype ssrnat seq choice fintype bigop ssralg matrix.
From Verif Require Import XR RStruct BfgsModel BfgsSpec BfgsProofs LinAlg GaussSpec GaussProofs KalmanModel KalmanSpec KalmanProofs.
Set Implicit Arguments.
Unset Strict Implicit.
Import GRing.Theory.
Local Open Scope ring_scope.

(** The model whose matrices and noise square roots are those of [M], with a
    given covariance for the first state. *)
Definition model_of d e (M : lgssm d e) (C : 'M[R]_d) : lgm d e :=
  LGM (init_mean M) C (trans_mat M) (fun i => trans_cov_sqrt M i *m (trans_cov_sqrt M i)^T)
      (lik_mat M) (fun i => lik_cov_sqrt M i *m (lik_cov_sqrt M i)^T).

(** The model as meant: the first state's covariance is that of its square root. *)
Definition true_model d e (M : lgssm d e) : lgm d e :=
  model_of M (init_cov_sqrt M *m (init_cov_sqrt M)^T).

(** A two-dimensional example with one observed coordinate. *)
Definition ex2 : lgssm 2 1 :=
  LG (const_mx 1) 1%:M (fun i => \matrix_(a, b) (if (a <= b)%N then 1 else 0)) (fun i => 1%:M)
     (fun i => \row_j (if (j == ord0) then 1 else 0)) (fun i => (IZR 2)%:M).
Lemma posdef_scalar n (c : R) : Rlt 0 c -> posdef (c%:M : 'M[R]_n).
Proof.
move=> Hc; split; first by rewrite tr_scalar_mx.
by move=> z Hz; rewrite bilE mul_scalar_mx dotZr; apply: Rmult_lt_0_compat => //; exact: dot_gt0.
Qed.
Lemma ex2_proper C : posdef C -> proper (model_of ex2 C).
Proof.
move=> HC; split=> //; split=> i /=; first by rewrite trmx1 mulmx1; exact: posdef1.
by rewrite tr_scalar_mx -scalar_mxM; apply: posdef_scalar; toR; lra.
Qed.

(** C39: an update is exact conditioning: prior times likelihood is the
    posterior times a density of the observation alone, *)
Theorem C39_update_bayes d e (M : lgssm d e) (y : nat -> 'cV[R]_e) i (mu : 'cV[R]_d) P :
  let H := lik_mat M i in let Rn := lik_cov_sqrt M i *m (lik_cov_sqrt M i)^T in
  posdef P -> posdef Rn ->
  let: (mu', P') := kf_update M y i (mu, P) in
  posdef P' /\
  forall x, Rplus (nld x mu P) (nld (y i) (H *m x) Rn)
          = Rplus (nld (y i) (H *m mu) (H *m P *m H^T + Rn)) (nld x mu' P').
Proof.
move=> H Rn HP HR; have [HC _] := @update_exact _ _ M y i mu P 0 HP HR.
by split=> // x; have [_ ->] := @update_exact _ _ M y i mu P x HP HR.
Qed.
Print Assumptions C39_update_bayes.

(** ... the precisions add, and the mean solves the normal equations. *)
Theorem C39_update_information d e (M : lgssm d e) (y : nat -> 'cV[R]_e) i (mu : 'cV[R]_d) P :
  let H := lik_mat M i in let Rn := lik_cov_sqrt M i *m (lik_cov_sqrt M i)^T in
  posdef P -> posdef Rn ->
  let: (mu', P') := kf_update M y i (mu, P) in
  invmx P' = invmx P + H^T *m invmx Rn *m H /\
  invmx P' *m mu' = invmx P *m mu + H^T *m invmx Rn *m y i.
Proof.
move=> H Rn HP HR; set u := kf_update _ _ _ _.
have [E1 E2] := cond_info H HP HR.
set C := P - _ in E1 E2; set K := _ *m invmx (_ + _) in E1 E2.
have Ui : C \in unitmx by exact: (unit_of_mul E1).
have EI : invmx C = invmx P + H^T *m invmx Rn *m H by exact: invmx_uniq.
rewrite /u /kf_update -[kal_gain M i P]/K; split; first by rewrite -EI.
have -> : mu + K *m (y i - lik_mat M i *m mu) = C *m (invmx P *m mu + H^T *m invmx Rn *m y i).
  rewrite [C *m (_ + _)]mulmxDr !mulmxA E2 /C mulmxBl mulmxV ?posdef_unit // mulmxBl mul1mx.
  rewrite -[K *m H *m P *m _]mulmxA mulmxV ?posdef_unit // mulmx1 mulmxBr [K *m (lik_mat M i *m _)]mulmxA.
  by rewrite -/H -addrA [- _ + _]addrC.
by rewrite mulKmx.
Qed.
Print Assumptions C39_update_information.

(** ... and so is a prediction: prior times transition is the predicted density
    times a normalised kernel back. *)
Theorem C39_predict d e (M : lgssm d e) i (mu : 'cV[R]_d) P :
  let F := trans_mat M i in let Q := trans_cov_sqrt M i *m (trans_cov_sqrt M i)^T in
  posdef P -> posdef Q ->
  let: (mu', P') := kf_predict M i (mu, P) in
  posdef P' /\ exists k : kern d d, kproper k /\
  forall x x', Rplus (nld x mu P) (nld x' (F *m x) Q) = Rplus (nld x' mu' P') (knld k x' x).
Proof.
move=> F Q HP HQ; split; first exact: cond_S.
pose K := P *m F^T *m invmx (F *m P *m F^T + Q).
exists (Kern K (mu - K *m (F *m mu)) (P - K *m F *m P)); split; first exact: cond_posdef.
move=> x x'; have := cond_bayes F HP HQ x mu x' 0; rewrite !addr0 => ->.
by rewrite /knld /= mulmxBr [mu + _]addrCA.
Qed.
Print Assumptions C39_predict.

(** Over a whole run of any length, every output is the law of the state given
    the observations so far, for the model with first covariance the one the
    code starts from. *)
Theorem C39_filter_marginals d e (M : lgssm d e) (y : nat -> 'cV[R]_e) n :
  proper (model_of M (init_cov_sqrt M)) ->
  size (kalman_filter M y n) = n.+1 /\
  forall i, (i <= n)%N ->
  let: (mu, P) := nth (dmarg d) (kalman_filter M y n) i in
  is_filtering (model_of M (init_cov_sqrt M)) i y mu P.
Proof.
move=> [H1 [H2 H3]]; split; first exact: size_filter.
by move=> i Hi; rewrite nth_filter //; case E: (fm M y i) => [mu P]; have := filter_is_filtering y H1 H2 H3 i; rewrite E.
Qed.
Print Assumptions C39_filter_marginals.

(** Being that law determines the mean and covariance. *)
Theorem C39_filtering_unique d e (S : lgm d e) n y mu P mu' P' :
  is_filtering S n y mu P -> is_filtering S n y mu' P' -> mu = mu' /\ P = P'.
Proof. exact: filtering_unique. Qed.
Print Assumptions C39_filtering_unique.

Example C39_example : proper (model_of ex2 (init_cov_sqrt ex2)).
Proof. by apply: ex2_proper; exact: posdef1. Qed.

(** * C40 *)
(** A model whose initial square root is the covariance itself is filtered
    exactly. *)
Theorem C40_initial_covariance_partial d e (M : lgssm d e) (y : nat -> 'cV[R]_e) n :
  proper (true_model M) -> init_cov_sqrt M *m (init_cov_sqrt M)^T = init_cov_sqrt M ->
  forall i, (i <= n)%N ->
  let: (mu, P) := nth (dmarg d) (kalman_filter M y n) i in is_filtering (true_model M) i y mu P.
Proof.
by move=> Hp E i Hi; rewrite /true_model E in Hp *; have [_] := C39_filter_marginals y n Hp; apply.
Qed.
Print Assumptions C40_initial_covariance_partial.
Example C40_example : proper (true_model ex2) /\ init_cov_sqrt ex2 *m (init_cov_sqrt ex2)^T = init_cov_sqrt ex2.
Proof.
have E : init_cov_sqrt ex2 *m (init_cov_sqrt ex2)^T = init_cov_sqrt ex2 by rewrite /= trmx1 mulmx1.
by split=> //; rewrite /true_model E; exact: C39_example.
Qed.

Delimit Scope R_scope with Re.
(** One dimension, matrices given by numbers. *)
Definition lg1 (m s f q h r : R) : lgssm 1 1 :=
  LG m%:M s%:M (fun i => f%:M) (fun i => q%:M) (fun i => h%:M) (fun i => r%:M).
Lemma inv1 (a : R) : invmx (a%:M : 'M[R]_1) = (Rinv a)%:M.
Proof. by rewrite invmx_scalar. Qed.
Lemma mul1 (a b : R) : (a%:M : 'M[R]_1) *m b%:M = (Rmult a b)%:M. Proof. by rewrite -scalar_mxM. Qed.
Lemma add1 (a b : R) : (a%:M : 'M[R]_1) + b%:M = (Rplus a b)%:M. Proof. by apply/matrixP=> i j; rewrite !mxE !ord1 eqxx !mulr1n. Qed.
Lemma opp1 (a : R) : - (a%:M : 'M[R]_1) = (Ropp a)%:M. Proof. by apply/matrixP=> i j; rewrite !mxE !ord1 eqxx !mulr1n. Qed.
Lemma inj1 (a b : R) : (a%:M : 'M[R]_1) = b%:M -> a = b.
Proof. by move/matrixP => /(_ ord0 ord0); rewrite !mxE eqxx !mulr1n. Qed.
Lemma eqs n (a b : R) : a = b -> (a%:M : 'M[R]_n) = b%:M. Proof. by move=> ->. Qed.
Definition E1 := (mul1, add1, opp1, inv1, @tr_scalar_mx).
Lemma upd1 m s f q h r (y : nat -> R) i mu P :
  kf_update (lg1 m s f q h r) (fun i => (y i)%:M) i (mu%:M, P%:M)
  = ((mu + P * h / (h * P * h + r * r) * (y i - h * mu))%Re%:M,
     (P - P * h / (h * P * h + r * r) * h * P)%Re%:M).
Proof. by rewrite /kf_update /kal_gain /lik_cov /= !E1; congr (_, _); apply: eqs; rewrite /Rdiv /Rminus. Qed.
Lemma fm01 m s f q h r (y : nat -> R) :
  fm (lg1 m s f q h r) (fun i => (y i)%:M) 0
  = ((m + s * h / (h * s * h + r * r) * (y 0%nat - h * m))%Re%:M,
     (s - s * h / (h * s * h + r * r) * h * s)%Re%:M).
Proof. exact: upd1. Qed.
Lemma pre1 m s f q h r i mu P :
  kf_predict (lg1 m s f q h r) i (mu%:M, P%:M) = ((f * mu)%Re%:M, (f * P * f + q * q)%Re%:M).
Proof. by rewrite /kf_predict /trans_cov /= !E1. Qed.
Lemma lg1_proper m s f q h r C : Rlt 0 C -> Rlt 0 (q * q) -> Rlt 0 (r * r) -> proper (model_of (lg1 m s f q h r) C%:M).
Proof.
by move=> HC HQ HR; split; [|split=> i]; rewrite /= ?tr_scalar_mx -?scalar_mxM; exact: posdef_scalar.
Qed.

(** In general it is not: with initial standard deviation 2 the first marginal
    has variance 2/3, the law given the observation has 4/5. *)
Theorem C40_initial_covariance_refuted :
  exists (M : lgssm 1 1) y, proper (true_model M) /\ proper (model_of M (init_cov_sqrt M)) /\
  let: (mu, P) := nth (dmarg 1) (kalman_filter M y 0) 0 in ~ is_filtering (true_model M) 0 y mu P.
Proof.
pose yr := (fun _ => 0%Re) : nat -> R.
pose y := (fun i => (yr i)%:M) : nat -> 'cV[R]_1.
pose M := lg1 0 2 1 1 1 1; exists M, y.
have EM : true_model M = model_of (lg1 0 4 1 1 1 1) (IZR 4)%:M.
  rewrite /true_model /model_of /= tr_scalar_mx mul1.
  by have -> : Rmult 2 2 = IZR 4 by ring.
have P1 : proper (model_of (lg1 0 4 1 1 1 1) (IZR 4)%:M) by apply: lg1_proper; lra.
split; first by rewrite EM.
split; first by apply: lg1_proper; lra.
have [_ /(_ 0%N (leqnn _))] := C39_filter_marginals (M := lg1 0 4 1 1 1 1) y 0 P1.
rewrite !(nth_filter _ _ (leqnn 0)) !(fm01 _ _ _ _ _ _ yr) -EM => H1 H2.
by have [_ /inj1] := filtering_unique H1 H2; lra.
Qed.
Print Assumptions C40_initial_covariance_refuted.

(** * C41 *)
(** Every smoother marginal, for every length, is the law of its state given
    all observations, again for the model with first covariance the one the code
    starts from; *)
Theorem C41_smoother_marginals_partial d e (M : lgssm d e) (y : nat -> 'cV[R]_e) n :
  proper (model_of M (init_cov_sqrt M)) ->
  let ms := (kalman_smoother M (kalman_filter M y n)).1 in
  size ms = n.+1 /\
  nth (dmarg d) ms n = nth (dmarg d) (kalman_filter M y n) n /\
  forall t, (t <= n)%N ->
  let: (mu, P) := nth (dmarg d) ms t in is_smoothing (model_of M (init_cov_sqrt M)) n t y mu P.
Proof.
move=> [H1 [H2 H3]] ms; have [S1 _] := size_smo M y n; split=> //.
split; first by rewrite nth_filter //; exact: smo_last.
move=> t Ht; have := smo_is_smoothing y H1 H2 H3 Ht.
by rewrite /smo -/ms; case: (nth _ ms t).
Qed.
Print Assumptions C41_smoother_marginals_partial.

(** ... and the law of a neighbouring pair of states has as cross covariance the
    backward gain times the later covariance. *)
Theorem C41_pair_law_partial d e (M : lgssm d e) (y : nat -> 'cV[R]_e) n t :
  proper (model_of M (init_cov_sqrt M)) -> (t < n)%N ->
  let f := nth (dmarg d) (kalman_filter M y n) t in
  let F := trans_mat M t.+1 in
  let G := f.2 *m F^T *m invmx (F *m f.2 *m F^T + trans_cov_sqrt M t.+1 *m (trans_cov_sqrt M t.+1)^T) in
  let ms := (kalman_smoother M (kalman_filter M y n)).1 in
  let: (mu, P) := nth (dmarg d) ms t in let: (mu', P') := nth (dmarg d) ms t.+1 in
  is_smoothing_pair (model_of M (init_cov_sqrt M)) n t y (col_mx mu mu')
    (block_mx P (G *m P') (P' *m G^T) P').
Proof.
move=> [H1 [H2 H3]] Ht f F G ms; have := smo_pair y H1 H2 H3 Ht.
rewrite /smo -/ms -(nth_filter M y (ltnW Ht)) -/f.
by case: (nth _ ms t) => mu P; case: (nth _ ms t.+1).
Qed.
Print Assumptions C41_pair_law_partial.

Theorem C41_smoothing_unique d e (S : lgm d e) n t y mu P mu' P' :
  is_smoothing S n t y mu P -> is_smoothing S n t y mu' P' -> mu = mu' /\ P = P'.
Proof. exact: smoothing_unique. Qed.
Print Assumptions C41_smoothing_unique.

Example C41_example : proper (model_of ex2 (init_cov_sqrt ex2)) /\ (0 < 3)%N.
Proof. by split=> //; exact: C39_example. Qed.

(** The lag-one moments returned are not the second moments of that pair: with
    unit matrices and observations 0 and 5 the code returns 1/5, where the
    expectation of the product is 16/5. *)
Theorem C41_lag_one_refuted :
  exists (M : lgssm 1 1) y, proper (true_model M) /\
  init_cov_sqrt M *m (init_cov_sqrt M)^T = init_cov_sqrt M /\
  forall (mu mu' : 'cV[R]_1) (P X X' P' : 'M[R]_1),
  is_smoothing_pair (true_model M) 1 0 y (col_mx mu mu') (block_mx P X X' P') ->
  nth 0 (kalman_smoother M (kalman_filter M y 1)).2 0 <> X + mu *m mu'^T.
Proof.
pose yr := (fun i => if i == 1%N then 5%Re else 0%Re) : nat -> R.
pose y := (fun i => (yr i)%:M) : nat -> 'cV[R]_1.
pose M := lg1 0 1 1 1 1 1; exists M, y.
have ES : init_cov_sqrt M *m (init_cov_sqrt M)^T = init_cov_sqrt M.
  by rewrite /M /= tr_scalar_mx mul1 Rmult_1_l.
have P1 : proper (model_of M (init_cov_sqrt M)) by apply: lg1_proper; lra.
rewrite /true_model ES; do 2!(split=> //).
have F0 : fm M y 0 = (0%Re%:M, (1/2)%Re%:M).
  rewrite fm01; congr (_, _); apply: eqs; rewrite /yr /=; field.
have F1 : fm M y 1 = (3%Re%:M, (3/5)%Re%:M).
  rewrite -[fm M y 1]/(kf_update M y 1 (kf_predict M 1 (fm M y 0))) F0 pre1 upd1.
  by congr (_, _); apply: eqs; rewrite /yr /=; field.
have S1 : smo M y 1 1 = (3%Re%:M, (3/5)%Re%:M) by rewrite smo_last F1.
have HG : back_gain M 0 (fm M y 0) = (1/3)%Re%:M.
  by rewrite F0 /back_gain /trans_cov /= !E1; apply: eqs; field.
have [E0 EL] := @smo_step _ _ M y 1 0 erefl.
have := @body_filter _ _ M y 1 0 (3%Re%:M, (3/5)%Re%:M) erefl.
cbv zeta; rewrite HG F0 F1 S1 in E0 EL * => B; rewrite B in E0 EL.
have S0 : smo M y 1 0 = (1%Re%:M, (2/5)%Re%:M).
  rewrite E0 /smarg /= /trans_cov /= !E1.
  by congr (_, _); apply: eqs; field.
have [H1 [H2 H3]] := P1; have := @smo_pair _ _ M y H1 H2 H3 1 0 erefl.
rewrite S0 S1 HG => HP mu mu' P X X' P' HP'.
have [Em EP] := smoothing_pair_unique HP HP'.
have [<- <-] := eq_col_mx Em; have [_ <- _ _] := eq_block_mx EP.
have -> : nth 0 (kalman_smoother M (kalman_filter M y 1)).2 0 = slag M y 1 0 by [].
rewrite EL /=.
have C1 : forall a b : R, const_mx (dot (a%:M : 'cV[R]_1) b%:M) = (Rmult a b)%:M :> 'M[R]_1.
  by move=> a b; apply/matrixP => i j; rewrite !mxE dotE tr_scalar_mx -scalar_mxM !mxE !ord1 eqxx.
by rewrite !E1 !C1 !E1 => /inj1; lra.
Qed.
Print Assumptions C41_lag_one_refuted.
