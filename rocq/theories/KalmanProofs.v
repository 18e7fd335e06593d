(** Proofs about Kalman filtering and smoothing. *)
From Coq Require Import Reals Lra.
From mathcomp Require Import ssreflect ssrfun ssrbool eqtype ssrnat seq choice fintype bigop ssralg matrix.
From Verif Require Import XR RStruct BfgsModel BfgsSpec BfgsProofs LinAlg GaussModel GaussSpec GaussProofs
  KalmanModel KalmanSpec.
Set Implicit Arguments.
Unset Strict Implicit.
Import GRing.Theory.
Local Open Scope ring_scope.

(** ** Gaussian densities under volume-preserving maps and on products *)
Lemma posdef_congr n (U C : 'M[R]_n) : U \in unitmx -> posdef C -> posdef (U *m C *m U^T).
Proof.
move=> UU HC; have UL := chol_unit HC; have [_ [_ E]] := chol_correct HC.
rewrite -{1}E; have -> : U *m (chol C *m (chol C)^T) *m U^T = (U *m chol C) *m (U *m chol C)^T.
  by rewrite trmx_mul !mulmxA.
by apply: posdef_gram; rewrite unitmx_mul UU UL.
Qed.

Lemma nld_volume n (U C : 'M[R]_n) (z m : 'cV[R]_n) : U \in unitmx -> \det U * \det U = 1 -> posdef C ->
  nld (U *m z) (U *m m) (U *m C *m U^T) = nld z m C.
Proof.
move=> UU D HC; rewrite !nldE //; last exact: posdef_congr.
have UC := posdef_unit HC; have UT : U^T \in unitmx by rewrite unitmx_tr.
have E : \det (invmx (U *m C *m U^T)) = \det (invmx C).
  by rewrite !det_inv !det_mulmx det_tr mulrAC D mul1r.
rewrite E; congr (Rplus (Rdiv _ _) _); rewrite -mulmxBr !invmx_mul // ?unitmx_mul ?UU ?UC //.
by rewrite !bilE -!mulmxA mulKmx // dot_adj2 trmx_inv trmxK mulKmx.
Qed.

Lemma dot_col n1 n2 (a a' : 'cV[R]_n1) (b b' : 'cV[R]_n2) : dot (col_mx a b) (col_mx a' b') = dot a a' + dot b b'.
Proof. by rewrite !dotE tr_col_mx mul_row_col mxE. Qed.

Lemma invmx_diag2 n1 n2 (A : 'M[R]_n1) (B : 'M[R]_n2) : A \in unitmx -> B \in unitmx ->
  invmx (block_mx A 0 0 B) = block_mx (invmx A) 0 0 (invmx B).
Proof.
move=> UA UB; apply: invmx_uniq; rewrite mulmx_block !mulmx0 !mul0mx !addr0 !add0r !mulmxV //.
by rewrite -scalar_mx_block.
Qed.

Lemma posdef_diag2 n1 n2 (A : 'M[R]_n1) (B : 'M[R]_n2) : posdef A -> posdef B -> posdef (block_mx A 0 0 B).
Proof.
move=> [SA PA] [SB PB]; split; first by rewrite tr_block_mx SA SB !trmx0.
move=> z; rewrite -[z]vsubmxK bilE mul_block_col !mul0mx addr0 add0r dot_col -!bilE => Hz.
case: (usubmx z =P 0) => [E|/PA H1]; last first.
  by apply: Rplus_lt_le_0_compat => //; have [_] := posdef_psd (conj SB PB); apply.
apply: Rplus_le_lt_0_compat; first by have [_] := posdef_psd (conj SA PA); apply.
by apply: PB => E2; apply: Hz; rewrite E E2 col_mx0.
Qed.

Lemma posdef_diag2_inv n1 n2 (A : 'M[R]_n1) (B : 'M[R]_n2) : posdef (block_mx A 0 0 B) -> posdef A /\ posdef B.
Proof.
move=> [S P]; move: S; rewrite tr_block_mx !trmx0 => /eq_block_mx [SA _ _ SB].
split; split=> // z Hz.
  have := P (col_mx z 0); rewrite bilE mul_block_col !mulmx0 !mul0mx !addr0 dot_col dot0l addr0 -bilE; apply.
  by move=> /(congr1 usubmx); rewrite col_mxKu linear0.
have := P (col_mx 0 z); rewrite bilE mul_block_col !mulmx0 !mul0mx !add0r dot_col dot0l add0r -bilE; apply.
by move=> /(congr1 dsubmx); rewrite col_mxKd linear0.
Qed.

Lemma nld_diag2 n1 n2 (A : 'M[R]_n1) (B : 'M[R]_n2) (z1 m1 : 'cV[R]_n1) (z2 m2 : 'cV[R]_n2) :
  posdef A -> posdef B ->
  nld (col_mx z1 z2) (col_mx m1 m2) (block_mx A 0 0 B) = Rplus (nld z1 m1 A) (nld z2 m2 B).
Proof.
move=> HA HB; have UA := posdef_unit HA; have UB := posdef_unit HB.
rewrite !nldE //; last exact: posdef_diag2.
rewrite invmx_diag2 // det_lblock opp_col_mx add_col_mx !bilE mul_block_col !mul0mx addr0 add0r dot_col.
rewrite /neg_log_z1 /half -RmultE (ln_mult (\det (invmx A))); try by apply: posdef_det; exact: posdef_inv.
set dA := ln _; set dB := ln (\det (invmx B)); set l := ln (Rmult 2 PI).
by rewrite plus_INR; toR; field.
Qed.

(** the block-triangular maps *)
Lemma det_up n1 n2 (G : 'M[R]_(n1, n2)) : \det (block_mx 1%:M G 0 1%:M) = 1.
Proof. by rewrite det_ublock !det1 mulr1. Qed.
Lemma det_low n1 n2 (G : 'M[R]_(n2, n1)) : \det (block_mx 1%:M 0 G 1%:M) = 1.
Proof. by rewrite det_lblock !det1 mulr1. Qed.

(** The joint of [x ~ N(m,P)] and [y | x ~ N(G x + a, B)]. *)
Definition jcov n1 n2 (G : 'M[R]_(n1, n2)) (P : 'M[R]_n2) (B : 'M[R]_n1) : 'M[R]_(n1 + n2) :=
  block_mx (G *m P *m G^T + B) (G *m P) (P *m G^T) P.

Lemma joint_upper n1 n2 (G : 'M[R]_(n1, n2)) (P : 'M[R]_n2) (B : 'M[R]_n1) (x m : 'cV[R]_n2) (y a : 'cV[R]_n1) :
  posdef P -> posdef B ->
  posdef (jcov G P B) /\
  nld (col_mx y x) (col_mx (G *m m + a) m) (jcov G P B) = Rplus (nld x m P) (nld y (G *m x + a) B).
Proof.
move=> HP HB; set U := block_mx 1%:M G 0 1%:M : 'M[R]_(n1 + n2).
have UU : U \in unitmx by rewrite unitmxE det_up unitr1.
have EC : jcov G P B = U *m block_mx B 0 0 P *m U^T.
  rewrite /jcov /U tr_block_mx !trmx1 trmx0 !mulmx_block !mul1mx !mulmx1 !mulmx0 !mul0mx !addr0 !add0r.
  by rewrite [B + _]addrC.
have HD := posdef_diag2 HB HP.
split; first by rewrite EC; exact: posdef_congr.
have -> : col_mx y x = U *m col_mx (y - G *m x) x.
  by rewrite mul_block_col !mul1mx !mul0mx add0r subrK.
have -> : col_mx (G *m m + a) m = U *m col_mx a m.
  by rewrite mul_block_col !mul1mx !mul0mx add0r addrC.
rewrite EC nld_volume //; last by rewrite det_up mulr1.
rewrite nld_diag2 // Rplus_comm; congr Rplus; rewrite !nldE //.
by rewrite opprD addrA.
Qed.

(** The joint of [y ~ N(n,S)] and [x | y ~ N(K y + b, C)]. *)
Lemma joint_lower n1 n2 (K : 'M[R]_(n2, n1)) (S : 'M[R]_n1) (C : 'M[R]_n2) (x b : 'cV[R]_n2) (y n : 'cV[R]_n1) :
  posdef S -> posdef C ->
  nld (col_mx y x) (col_mx n (K *m n + b)) (block_mx S (S *m K^T) (K *m S) (K *m S *m K^T + C))
  = Rplus (nld y n S) (nld x (K *m y + b) C).
Proof.
move=> HS HC; set U := block_mx 1%:M 0 K 1%:M : 'M[R]_(n1 + n2).
have UU : U \in unitmx by rewrite unitmxE det_low unitr1.
have -> : block_mx S (S *m K^T) (K *m S) (K *m S *m K^T + C) = U *m block_mx S 0 0 C *m U^T.
  by rewrite /U tr_block_mx !trmx1 trmx0 !mulmx_block !mul1mx !mulmx1 !mulmx0 !mul0mx !addr0 !add0r.
have -> : col_mx y x = U *m col_mx y (x - K *m y).
  by rewrite mul_block_col !mul1mx !mul0mx addr0 addrC subrK.
have -> : col_mx n (K *m n + b) = U *m col_mx n b.
  by rewrite mul_block_col !mul1mx !mul0mx addr0.
rewrite nld_volume //; [|by rewrite det_low mulr1|exact: posdef_diag2].
rewrite nld_diag2 //; congr Rplus; rewrite !nldE //.
by rewrite opprD addrA.
Qed.

(** ** Conditioning *)
Section Cond.
Variables (n1 n2 : nat) (G : 'M[R]_(n1, n2)) (P : 'M[R]_n2) (B : 'M[R]_n1).
Hypothesis HP : posdef P.
Hypothesis HB : posdef B.
Let S := G *m P *m G^T + B.
Let K := P *m G^T *m invmx S.
Let C := P - K *m G *m P.

Lemma cond_S : posdef S.
Proof.
have -> : S = B + G *m P *m G^T by rewrite addrC.
by apply: posdef_add => //; apply: psd_congr; exact: posdef_psd.
Qed.
Lemma cond_KS : K *m S = P *m G^T.
Proof. by rewrite /K mulmxKV //; apply: posdef_unit; exact: cond_S. Qed.
Lemma cond_SK : S *m K^T = G *m P.
Proof.
have [SS _] := cond_S; have [SP _] := HP.
by rewrite -[LHS]trmxK trmx_mul trmxK SS cond_KS trmx_mul trmxK SP.
Qed.
Lemma cond_C : K *m S *m K^T + C = P.
Proof. by rewrite -mulmxA cond_SK /C mulmxA addrC subrK. Qed.
Lemma cond_block : jcov G P B = block_mx S (S *m K^T) (K *m S) (K *m S *m K^T + C).
Proof. by rewrite cond_C cond_SK cond_KS. Qed.

Lemma cond_posdef : posdef C.
Proof.
set U := block_mx 1%:M 0 (- K) 1%:M : 'M[R]_(n1 + n2).
have UU : U \in unitmx by rewrite unitmxE det_low unitr1.
have [HJ _] := @joint_upper _ _ G P B 0 0 0 0 HP HB.
have := posdef_congr UU HJ; rewrite cond_block.
have -> : U *m block_mx S (S *m K^T) (K *m S) (K *m S *m K^T + C) *m U^T = block_mx S 0 0 C.
  rewrite /U tr_block_mx !trmx1 trmx0 linearN /= !mulmx_block.
  rewrite !mul1mx !mulmx1 !mulmx0 !mul0mx !addr0 !mulNmx.
  rewrite [- (K *m S) + _]addNr mul0mx add0r mulmxA addKr mulmxN addNr.
  by congr block_mx; rewrite mulmx1.
by move/posdef_diag2_inv => [].
Qed.

Lemma cond_info : C *m (invmx P + G^T *m invmx B *m G) = 1%:M /\ C *m G^T *m invmx B = K.
Proof.
have UP := posdef_unit HP; have UB := posdef_unit HB.
have E : C *m G^T = K *m B.
  have E0 : K *m G *m P *m G^T = K *m (G *m P *m G^T) by rewrite !mulmxA.
  by rewrite /C mulmxBl -cond_KS E0 -mulmxBr /S [_ + B]addrC addrK.
have E2 : C *m G^T *m invmx B = K by rewrite E mulmxK.
split=> //; rewrite mulmxDr !mulmxA E2 /C mulmxBl mulmxV //.
by rewrite -mulmxA mulmxV // mulmx1 subrK.
Qed.

(** Conditioning is exact: the two factorisations of the joint agree. *)
Lemma cond_bayes (x m : 'cV[R]_n2) (y a : 'cV[R]_n1) :
  Rplus (nld x m P) (nld y (G *m x + a) B)
  = Rplus (nld y (G *m m + a) S) (nld x (m + K *m (y - (G *m m + a))) C).
Proof.
have [_ <-] := @joint_upper _ _ G P B x m y a HP HB.
have -> : m + K *m (y - (G *m m + a)) = K *m y + (m - K *m (G *m m + a)).
  by rewrite mulmxBr addrCA.
rewrite cond_block -joint_lower; [|exact: cond_S|exact: cond_posdef].
by rewrite [K *m _ + _]addrC subrK.
Qed.
End Cond.

(** ** Minimising Gaussian densities *)
Lemma nld_ge n (x m : 'cV[R]_n) C : posdef C -> Rle (nld m m C) (nld x m C).
Proof.
move=> HC; rewrite !nldE // subrr; apply: Rplus_le_compat_r; apply: Rmult_le_compat_r; first by lra.
by rewrite {1}bilE dot0l; have [_] := posdef_psd (posdef_inv HC); apply.
Qed.

Lemma bil00 n (M : 'M[R]_n) w : bil 0 M w = 0.
Proof. by rewrite bilE dot0l. Qed.

Lemma quad_inj n (A B : 'M[R]_n) : A^T = A -> B^T = B -> (forall w, bil w A w = bil w B w) -> A = B.
Proof.
move=> SA SB H.
have Hp : forall u v, bil u A v = bil u B v.
  move=> u v; have := H (u + v); rewrite !bilE !mulmxDr !dotDl !dotDr -!bilE !H.
  have EA : bil v A u = bil u A v by rewrite !bilE dot_adj2 SA dotC.
  have EB : bil v B u = bil u B v by rewrite !bilE dot_adj2 SB dotC.
  by rewrite EA EB; toR; lra.
apply/matrixP => i j; have := Hp (delta_mx i ord0) (delta_mx j ord0).
by rewrite /bil !trmx_delta -!rowE -!colE !mxE.
Qed.

Lemma nld_inj n (m m' : 'cV[R]_n) C C' k k' : posdef C -> posdef C' ->
  (forall x, Rplus k (nld x m C) = Rplus k' (nld x m' C')) -> m = m' /\ C = C' /\ k = k'.
Proof.
move=> HC HC' H.
have E1 := H m; have E2 := H m'.
have L1 := @nld_ge _ m m' C' HC'; have L2 := @nld_ge _ m' m C HC.
have Em : m = m'.
  apply/eqP; rewrite -subr_eq0; apply/negPn/negP => /eqP N.
  have [_ /(_ _ N)] := posdef_inv HC'.
  have : bil (m - m') (invmx C') (m - m') = 0; last by move=> -> /Rlt_irrefl.
  have : nld m m' C' = nld m' m' C' by lra.
  by rewrite !nldE // subrr bil00 -R0E; lra.
have Q : forall w, bil w (invmx C) w = bil w (invmx C') w.
  move=> w; have := H (m + w); have := H m; rewrite -Em !nldE //.
  by rewrite subrr [m + w]addrC addrK !bil00 -R0E; lra.
have EC : C = C'.
  have [S1 _] := posdef_inv HC; have [S2 _] := posdef_inv HC'.
  by rewrite -[C]invmxK (quad_inj S1 S2 Q) invmxK.
by move: E1; rewrite -Em -EC => E1; do !split => //; lra.
Qed.

(** ** Marginals are unique *)
Section Unique.
Variables d e : nat.
Implicit Types (k : kern d d) (x : nat -> 'cV[R]_d).

(** the point which every kernel sends to its mean: backwards below [t] and
    forwards above it *)
Fixpoint back_path (b : nat -> kern d d) (t : nat) (v : 'cV[R]_d) (i : nat) : 'cV[R]_d :=
  match t with
  | 0 => v
  | t'.+1 => if i == t then v
             else back_path b t' (kA (b t') *m v + kb (b t')) i
  end.
Lemma back_path_top b t v : back_path b t v t = v.
Proof. by case: t => //= t; rewrite eqxx. Qed.
Lemma back_path_step b t v i : (i < t)%N ->
  back_path b t v i = kA (b i) *m back_path b t v i.+1 + kb (b i).
Proof.
elim: t v => // t IH v Hi /=.
rewrite (ltn_eqF Hi) eqSS.
move: Hi; rewrite ltnS leq_eqVlt => /orP[/eqP->|Hi]; first by rewrite eqxx back_path_top.
by rewrite (ltn_eqF Hi) IH.
Qed.
Fixpoint fwd_path (f : nat -> kern d d) (t : nat) (v : 'cV[R]_d) (j : nat) : 'cV[R]_d :=
  match j with 0 => v | j'.+1 => kA (f (t + j')%N) *m fwd_path f t v j' + kb (f (t + j')%N) end.
Definition mode_path b f t v i := if (i < t)%N then back_path b t v i else fwd_path f t v (i - t).

Lemma mode_at b f t v : mode_path b f t v t = v.
Proof. by rewrite /mode_path ltnn subnn. Qed.
Lemma mode_back b f t v i : (i < t)%N ->
  mode_path b f t v i = kA (b i) *m mode_path b f t v i.+1 + kb (b i).
Proof.
move=> Hi; rewrite /mode_path Hi back_path_step //; case: ltnP => // H.
by have -> : i.+1 = t; [apply/eqP; rewrite eqn_leq H Hi|rewrite subnn /= back_path_top].
Qed.
Lemma mode_fwd b f t v i : (t <= i)%N ->
  mode_path b f t v i.+1 = kA (f i) *m mode_path b f t v i + kb (f i).
Proof. by move=> Hi; rewrite /mode_path !ltnNge Hi (leqW Hi) /= subSn //= subnKC. Qed.

Definition kmin k : R := nld (0 : 'cV[R]_d) 0 (kC k).
Lemma nld_self n (m : 'cV[R]_n) C : posdef C -> nld m m C = nld (0 : 'cV[R]_n) 0 C.
Proof. by move=> HC; rewrite !nldE // !subrr. Qed.
Lemma knld_ge k (u z : 'cV[R]_d) : kproper k -> Rle (kmin k) (knld k u z).
Proof. by move=> H; rewrite /kmin -(@nld_self _ (kA k *m u + kb k)) //; exact: nld_ge. Qed.
Lemma knld_at k (u : 'cV[R]_d) : kproper k -> knld k u (kA k *m u + kb k) = kmin k.
Proof. by move=> H; exact: nld_self. Qed.

Lemma sum_Rle (m n : nat) (F G : nat -> R) : (forall i, (m <= i < n)%N -> Rle (F i) (G i)) ->
  Rle (\sum_(m <= i < n) F i) (\sum_(m <= i < n) G i).
Proof.
move=> H; rewrite big_seq [X in Rle _ X]big_seq.
elim/big_ind2: _ => [|a b c e0 H1 H2|i]; first exact: Rle_refl.
  exact: Rplus_le_compat.
by rewrite mem_index_iota; exact: H.
Qed.

Lemma rearr c v s1 s2 s1' s2' : Rle s1 s1' -> Rle s2 s2' ->
  Rle (Rplus (Rplus (Rplus c s1) s2) v) (Rplus (Rplus (Rplus c v) s1') s2').
Proof. lra. Qed.

(** a decomposition determines the least value given the state at [t] *)
Definition least (J : (nat -> 'cV[R]_d) -> R) (t : nat) (v : 'cV[R]_d) (r : R) : Prop :=
  (exists x, x t = v /\ J x = r) /\ forall x, x t = v -> Rle r (J x).
Lemma least_uniq J t v r r' : least J t v r -> least J t v r' -> r = r'.
Proof.
move=> [[x [Ex <-]] L] [[x' [Ex' <-]] L']; apply: Rle_antisym; [exact: L|exact: L'].
Qed.

Lemma decomposed_least J n t c mu P b f : (forall i, kproper (b i)) -> (forall i, kproper (f i)) ->
  (forall x, J x = c + nld (x t) mu P + \sum_(0 <= i < t) knld (b i) (x i.+1) (x i)
        + \sum_(t <= i < n) knld (f i) (x i) (x i.+1)) ->
  forall v, least J t v (Rplus (c + \sum_(0 <= i < t) kmin (b i) + \sum_(t <= i < n) kmin (f i)) (nld v mu P)).
Proof.
move=> Hb Hf HJ v; split.
  exists (mode_path b f t v); rewrite HJ mode_at; split => //.
  rewrite (@eq_big_nat _ _ _ 0 t _ (fun i => kmin (b i))); last first.
    by move=> i /andP[_ Hi]; rewrite (mode_back _ _ _ Hi) knld_at.
  rewrite (@eq_big_nat _ _ _ t n _ (fun i => kmin (f i))); last first.
    by move=> i /andP[Hi _]; rewrite (mode_fwd _ _ _ Hi) knld_at.
  by rewrite RplusE -!addrA; congr (_ + _); rewrite addrC -!addrA.
move=> x <-; rewrite HJ.
have A1 : Rle (\sum_(0 <= i < t) kmin (b i)) (\sum_(0 <= i < t) knld (b i) (x i.+1) (x i)).
  by apply: sum_Rle => i _; exact: knld_ge.
have A2 : Rle (\sum_(t <= i < n) kmin (f i)) (\sum_(t <= i < n) knld (f i) (x i) (x i.+1)).
  by apply: sum_Rle => i _; exact: knld_ge.
exact: (rearr _ _ A1 A2).
Qed.

Lemma smoothing_unique (S : lgm d e) n t y mu P mu' P' :
  is_smoothing S n t y mu P -> is_smoothing S n t y mu' P' -> mu = mu' /\ P = P'.
Proof.
move=> [HP [c [b [f [Hb [Hf H]]]]]] [HP' [c' [b' [f' [Hb' [Hf' H']]]]]].
have E : forall v, Rplus (c + \sum_(0 <= i < t) kmin (b i) + \sum_(t <= i < n) kmin (f i)) (nld v mu P)
   = Rplus (c' + \sum_(0 <= i < t) kmin (b' i) + \sum_(t <= i < n) kmin (f' i)) (nld v mu' P').
  move=> v; apply: (@least_uniq (fun x => joint S n x y) t v); exact: decomposed_least.
by have [? [? _]] := nld_inj HP HP' E.
Qed.

Definition pair_path b f t v w i := if (i <= t)%N then back_path b t v i else fwd_path f t.+1 w (i - t.+1).
Lemma pair_least J n t c mu P b f : (forall i, kproper (b i)) -> (forall i, kproper (f i)) ->
  (forall x, J x = c + nld (col_mx (x t) (x t.+1)) mu P + \sum_(0 <= i < t) knld (b i) (x i.+1) (x i)
        + \sum_(t.+1 <= i < n) knld (f i) (x i) (x i.+1)) ->
  forall v w, let r := Rplus (c + \sum_(0 <= i < t) kmin (b i) + \sum_(t.+1 <= i < n) kmin (f i)) (nld (col_mx v w) mu P) in
  (exists x, x t = v /\ x t.+1 = w /\ J x = r) /\ forall x, x t = v -> x t.+1 = w -> Rle r (J x).
Proof.
move=> Hb Hf HJ v w; split.
  exists (pair_path b f t v w).
  have Et : pair_path b f t v w t = v by rewrite /pair_path leqnn back_path_top.
  have Es : pair_path b f t v w t.+1 = w by rewrite /pair_path ltnn subnn.
  rewrite HJ Et Es; split=> //; split=> //.
  rewrite (@eq_big_nat _ _ _ 0 t _ (fun i => kmin (b i))); last first.
    move=> i /andP[_ Hi]; rewrite {2}/pair_path (ltnW Hi) back_path_step //.
    by rewrite {1}/pair_path Hi knld_at.
  rewrite (@eq_big_nat _ _ _ t.+1 n _ (fun i => kmin (f i))); last first.
    move=> i /andP[Hi _]; rewrite {2}/pair_path leqNgt (leqW Hi) /= subSn //= subnKC //.
    by rewrite /pair_path leqNgt Hi /= knld_at.
  by rewrite RplusE -!addrA; congr (_ + _); rewrite addrC -!addrA.
move=> x <- <-; rewrite HJ.
have A1 : Rle (\sum_(0 <= i < t) kmin (b i)) (\sum_(0 <= i < t) knld (b i) (x i.+1) (x i)).
  by apply: sum_Rle => i _; exact: knld_ge.
have A2 : Rle (\sum_(t.+1 <= i < n) kmin (f i)) (\sum_(t.+1 <= i < n) knld (f i) (x i) (x i.+1)).
  by apply: sum_Rle => i _; exact: knld_ge.
exact: (rearr _ _ A1 A2).
Qed.

Lemma smoothing_pair_unique (S : lgm d e) n t y mu P mu' P' :
  is_smoothing_pair S n t y mu P -> is_smoothing_pair S n t y mu' P' -> mu = mu' /\ P = P'.
Proof.
move=> [HP [c [b [f [Hb [Hf H]]]]]] [HP' [c' [b' [f' [Hb' [Hf' H']]]]]].
have E : forall z, Rplus (c + \sum_(0 <= i < t) kmin (b i) + \sum_(t.+1 <= i < n) kmin (f i)) (nld z mu P)
   = Rplus (c' + \sum_(0 <= i < t) kmin (b' i) + \sum_(t.+1 <= i < n) kmin (f' i)) (nld z mu' P').
  move=> z; rewrite -[z]vsubmxK.
  have [[x [E1 [E2 E3]]] L] := pair_least Hb Hf H (usubmx z) (dsubmx z).
  have [[x' [E1' [E2' E3']]] L'] := pair_least Hb' Hf' H' (usubmx z) (dsubmx z).
  by apply: Rle_antisym; [rewrite -E3'; exact: L|rewrite -E3; exact: L'].
by have [? [? _]] := nld_inj HP HP' E.
Qed.

Lemma filtering_smoothing (S : lgm d e) n y mu P : is_filtering S n y mu P -> is_smoothing S n n y mu P.
Proof.
move=> [HP [c [b [Hb H]]]]; split=> //; exists c, b, b; split=> //; split=> // x.
by rewrite H [X in _ = _ + X]big_geq // addr0.
Qed.

Lemma filtering_unique (S : lgm d e) n y mu P mu' P' :
  is_filtering S n y mu P -> is_filtering S n y mu' P' -> mu = mu' /\ P = P'.
Proof. by move=> /filtering_smoothing H /filtering_smoothing H'; exact: (smoothing_unique H H'). Qed.
End Unique.

(** ** The filter *)
Section Run.
Variables (d e : nat) (M : lgssm d e) (y : nat -> 'cV[R]_e).
Fixpoint fm (i : nat) : marginal d :=
  match i with 0 => kf_update M y 0 (kf_start M) | i'.+1 => kf_update M y i (kf_predict M i (fm i')) end.
Lemma nth_scan n i k : (k < n)%N -> nth (dmarg d) (kf_scan M y i.+1 (fm i) n) k = fm (i.+1 + k).
Proof.
elim: n i k => // n IH i [|k] Hk; first by rewrite addn0.
by rewrite addnS -addSn -(IH i.+1 k).
Qed.
Lemma nth_filter n i : (i <= n)%N -> nth (dmarg d) (kalman_filter M y n) i = fm i.
Proof. by case: i => [|i] Hi //=; rewrite (@nth_scan n 0 i). Qed.
Lemma size_scan n i c : size (kf_scan M y i c n) = n.
Proof. by elim: n i c => //= n IH i c; rewrite IH. Qed.
Lemma size_filter n : size (kalman_filter M y n) = n.+1.
Proof. by rewrite /= size_scan. Qed.

(** the model behind the filter, with a given initial covariance *)
Definition lg_of (C : 'M[R]_d) : lgm d e :=
  LGM (init_mean M) C (trans_mat M) (trans_cov M) (lik_mat M) (lik_cov M).

Lemma joint0 (S : lgm d e) x : joint S 0 x y
  = Rplus (nld (x 0%N) (m0 S) (C0 S)) (nld (y 0%N) (oH S 0 *m x 0%N) (oR S 0)).
Proof. rewrite /joint [\sum_(i < 1) _]big_ord_recl !big_ord0 !addr0; exact: Rplus_0_r. Qed.
Lemma jointS (S : lgm d e) n x : joint S n.+1 x y
  = Rplus (Rplus (joint S n x y) (nld (x n.+1) (tF S n.+1 *m x n) (tQ S n.+1)))
          (nld (y n.+1) (oH S n.+1 *m x n.+1) (oR S n.+1)).
Proof.
rewrite /joint [\sum_(i < n.+2) _]big_ord_recr [\sum_(i < n.+1) nld (x _) _ _]big_ord_recr /=.
set a := \sum_(i < n.+1) _; set b := \sum_(i < n) _; toR; ring.
Qed.

(** one update is conditioning *)
Lemma update_exact i mu P x : posdef P -> posdef (lik_cov M i) ->
  let: (mu', P') := kf_update M y i (mu, P) in
  posdef P' /\
  Rplus (nld x mu P) (nld (y i) (lik_mat M i *m x) (lik_cov M i))
  = Rplus (nld (y i) (lik_mat M i *m mu) (lik_mat M i *m P *m (lik_mat M i)^T + lik_cov M i)) (nld x mu' P').
Proof.
move=> HP HR; split; first exact: cond_posdef.
by have := cond_bayes (lik_mat M i) HP HR x mu (y i) 0; rewrite !addr0.
Qed.

(** the reverse kernel *)
Definition bker (i : nat) : kern d d :=
  let f := fm i in
  let G := back_gain M i f in
  Kern G (f.1 - G *m (trans_mat M i.+1 *m f.1)) (f.2 - G *m trans_mat M i.+1 *m f.2).

Lemma predict_exact i (x x' : 'cV[R]_d) : posdef (fm i).2 -> posdef (trans_cov M i.+1) ->
  let: (mu', P') := kf_predict M i.+1 (fm i) in
  posdef P' /\ kproper (bker i) /\
  Rplus (nld x (fm i).1 (fm i).2) (nld x' (trans_mat M i.+1 *m x) (trans_cov M i.+1))
  = Rplus (nld x' mu' P') (knld (bker i) x' x).
Proof.
rewrite /bker; case: (fm i) => mu P /= HP HQ; split; first exact: cond_S.
split; first exact: cond_posdef.
have := cond_bayes (trans_mat M i.+1) HP HQ x mu x' 0; rewrite !addr0 => ->.
by rewrite /knld /= mulmxBr addrCA.
Qed.

Hypothesis HC0 : posdef (init_cov_sqrt M).
Hypothesis HQ : forall i, posdef (trans_cov M i).
Hypothesis HR : forall i, posdef (lik_cov M i).

Lemma fm_posdef i : posdef (fm i).2.
Proof.
elim: i => [|i IH] /=.
  by have := @update_exact 0 (init_mean M) (init_cov_sqrt M) 0 HC0 (HR 0) => -[].
have := @predict_exact i 0 0 IH (HQ _); case: (kf_predict _ _ _) => mu P [HP _].
by have := @update_exact i.+1 mu P 0 HP (HR _) => -[].
Qed.
Lemma bker_proper i : kproper (bker i).
Proof.
by have := @predict_exact i 0 0 (fm_posdef i) (HQ _); case: (kf_predict _ _ _) => mu P [_ []].
Qed.

(** the evidence terms: minus the log predictive densities of the data *)
Definition predictive (i : nat) : R :=
  let: (mu, P) := match i with 0 => kf_start M | i'.+1 => kf_predict M i (fm i') end in
  nld (y i) (lik_mat M i *m mu) (lik_mat M i *m P *m (lik_mat M i)^T + lik_cov M i).

Lemma filter_run n x : joint (lg_of (init_cov_sqrt M)) n x y
  = (\sum_(0 <= i < n.+1) predictive i) + nld (x n) (fm n).1 (fm n).2
    + \sum_(0 <= i < n) knld (bker i) (x i.+1) (x i).
Proof.
elim: n => [|n IH].
  rewrite joint0 big_nat1 big_geq // addr0 /=.
  by have [_] := @update_exact 0 (init_mean M) (init_cov_sqrt M) (x 0%N) HC0 (HR 0).
rewrite jointS IH [\sum_(0 <= i < n.+2) _]big_nat_recr // [\sum_(0 <= i < n.+1) knld _ _ _]big_nat_recr //.
set a := \sum_(0 <= i < n.+1) _; set b := \sum_(0 <= i < n) _.
have := @predict_exact n (x n) (x n.+1) (fm_posdef n) (HQ _).
rewrite [predictive n.+1]/predictive [fm n.+1]/=; case: (kf_predict _ _ _) => mu P [HP [_ E1]].
have [_ E2] := @update_exact n.+1 mu P (x n.+1) HP (HR _).
by move: E1 E2; clearbody a b; rewrite /=; toR; lra.
Qed.

Lemma filter_is_filtering n : is_filtering (lg_of (init_cov_sqrt M)) n y (fm n).1 (fm n).2.
Proof.
split; first exact: fm_posdef.
by exists (\sum_(0 <= i < n.+1) predictive i), bker; split; [exact: bker_proper|exact: filter_run].
Qed.

(** ** The smoother *)
Lemma back_step i (ms : 'cV[R]_d) (Ps : 'M[R]_d) : posdef Ps ->
  let G := back_gain M i (fm i) in
  exists k : kern d d, kproper k /\
  let mu := (fm i).1 + G *m (ms - trans_mat M i.+1 *m (fm i).1) in
  let C := (fm i).2 + G *m (Ps - trans_mat M i.+1 *m (fm i).2 *m (trans_mat M i.+1)^T - trans_cov M i.+1) *m G^T in
  posdef C /\ posdef (block_mx C (G *m Ps) (Ps *m G^T) Ps) /\
  forall x x' : 'cV[R]_d,
   Rplus (nld x' ms Ps) (knld (bker i) x' x) = Rplus (nld x mu C) (knld k x x')
   /\ Rplus (nld x' ms Ps) (knld (bker i) x' x)
      = nld (col_mx x x') (col_mx mu ms) (block_mx C (G *m Ps) (Ps *m G^T) Ps).
Proof.
move=> HPs G.
have HB : posdef (kC (bker i)) := bker_proper i.
pose a := kb (bker i).
have EG : kA (bker i) = G by [].
set mu := (fm i).1 + _; set C := (fm i).2 + _.
have Emu : mu = G *m ms + a.
  by rewrite /mu /a /bker /= mulmxBr addrCA.
have EC : C = G *m Ps *m G^T + kC (bker i).
  rewrite /C /bker /= -/G -addrA -opprD.
  have := @cond_SK _ _ (trans_mat M i.+1) (fm i).2 (trans_cov M i.+1) (fm_posdef i) (HQ _).
  rewrite -/(back_gain M i (fm i)) -/G => E.
  by rewrite mulmxBr mulmxBl -[G *m (_ + _) *m G^T]mulmxA E mulmxA addrCA.
pose K := Ps *m G^T *m invmx (G *m Ps *m G^T + kC (bker i)).
exists (Kern K (ms - K *m (G *m ms + a)) (Ps - K *m G *m Ps)).
have J := @joint_upper _ _ G Ps (kC (bker i)).
split; first exact: cond_posdef.
rewrite Emu EC; split; first exact: cond_S.
split; first by have [] := J 0 0 0 0 HPs HB.
move=> x x'; split.
  rewrite /knld EG -/a (cond_bayes G HPs HB x' ms x a) /= -/K.
  by rewrite mulmxBr [ms + _]addrCA.
by have [_ ->] := J x' ms x a HPs HB; rewrite /knld EG.
Qed.

Definition smarg (o : sm_out d) : marginal d := (sm_mu o, sm_cov o).
Definition sm0 : sm_out d := SM 0 0 0.
Lemma size_ks f n next : size (ks_scan M f n next) = n.
Proof. by elim: n next => //= n IH next; rewrite size_rcons IH. Qed.
Lemma nth_ks f n next i : (i < n)%N ->
  nth sm0 (ks_scan M f n next) i
  = ks_body M f i (if i.+1 == n then next else smarg (nth sm0 (ks_scan M f n next) i.+1)).
Proof.
elim: n next => // n IH next; rewrite ltnS leq_eqVlt /= => /orP[/eqP->|Hi].
  by rewrite eqxx nth_rcons size_ks ltnn eqxx.
rewrite eqSS (ltn_eqF Hi) !nth_rcons size_ks Hi IH //.
by case: (ltngtP i.+1 n) => // H; move: Hi; rewrite ltnNge -ltnS H.
Qed.

Section Smoother.
Variable n : nat.
Let f := kalman_filter M y n.
Lemma size_f : size f = n.+1. Proof. exact: size_filter. Qed.
Definition smo i := nth (dmarg d) (kalman_smoother M f).1 i.
Definition slag i := nth 0 (kalman_smoother M f).2 i.

Lemma smo_last : smo n = fm n.
Proof.
rewrite /smo /kalman_smoother size_f /= nth_rcons size_map size_ks ltnn eqxx.
exact: nth_filter.
Qed.
Lemma size_smo : size (kalman_smoother M f).1 = n.+1 /\ size (kalman_smoother M f).2 = n.
Proof. by rewrite /kalman_smoother size_f /= size_rcons !size_map size_ks. Qed.
Lemma smo_step i : (i < n)%N ->
  smo i = smarg (ks_body M f i (smo i.+1)) /\ slag i = sm_lag (ks_body M f i (smo i.+1)).
Proof.
move=> Hi; rewrite /smo /slag /kalman_smoother size_f /fst /snd [n.+1.-1]/=.
set l := nth _ f n.
have E : ks_body M f i (nth (dmarg d) (rcons [seq (sm_mu o, sm_cov o) | o <- ks_scan M f n l] l) i.+1)
  = nth sm0 (ks_scan M f n l) i.
  rewrite nth_ks // nth_rcons size_map size_ks; congr ks_body.
  by case: (ltngtP i.+1 n) => [H|H|//]; [rewrite (nth_map sm0) ?size_ks|move: Hi; rewrite ltnNge -ltnS H].
by rewrite E nth_rcons size_map size_ks Hi !(nth_map sm0) ?size_ks.
Qed.

Lemma body_filter i next : (i < n)%N -> ks_body M f i next = 
  let G := back_gain M i (fm i) in
  let F := trans_mat M i.+1 in
  SM ((fm i).1 + G *m (next.1 - F *m (fm i).1))
     ((fm i).2 + G *m (next.2 - F *m (fm i).2 *m F^T - trans_cov M i.+1) *m G^T)
     (const_mx (dot (fm i).1 next.1)
           + G *m (next.2 + const_mx (dot (next.1 - (fm i.+1).1) next.1))).
Proof. by move=> Hi; rewrite /ks_body !nth_filter //; exact: ltnW. Qed.

Definition smooth_dec (t : nat) (m : marginal d) : Prop :=
  posdef m.2 /\
  exists g : nat -> kern d d, (forall i, kproper (g i)) /\ forall x,
  joint (lg_of (init_cov_sqrt M)) n x y
  = Rplus (Rplus (Rplus (\sum_(0 <= i < n.+1) predictive i) (nld (x t) m.1 m.2))
    (\sum_(0 <= i < t) knld (bker i) (x i.+1) (x i)))
    (\sum_(t <= i < n) knld (g i) (x i) (x i.+1)).

Lemma smooth_dec_last : smooth_dec n (smo n).
Proof.
rewrite smo_last; split; first exact: fm_posdef.
exists bker; split=> [|x]; first exact: bker_proper.
by rewrite filter_run [X in _ = Rplus _ X]big_geq // Rplus_0_r.
Qed.

Lemma smooth_dec_step t : (t < n)%N -> smooth_dec t.+1 (smo t.+1) -> smooth_dec t (smo t).
Proof.
move=> Ht [HP [g [Hg H]]]; have [E _] := smo_step Ht; rewrite E body_filter //.
have [k [Hk [HC [_ HB]]]] := @back_step t (smo t.+1).1 _ HP.
split=> //; exists (fun i => if i == t then k else g i); split=> [i|x].
  by case: eqP.
rewrite H; rewrite [\sum_(t <= i < n) _]big_ltn // eqxx [\sum_(0 <= i < t.+1) _]big_nat_recr //.
have -> : \sum_(t.+1 <= i < n) knld (if i == t then k else g i) (x i) (x i.+1)
        = \sum_(t.+1 <= i < n) knld (g i) (x i) (x i.+1).
  by apply: eq_big_nat => i /andP[Hi _]; rewrite gtn_eqF.
have [E1 _] := HB (x t) (x t.+1); move: E1; rewrite /smarg.
set a := \sum_(0 <= i < n.+1) _; set b := \sum_(0 <= i < t) _; set c := \sum_(t.+1 <= i < n) _.
by clearbody a b c; rewrite /=; toR; lra.
Qed.

Lemma smooth_dec_all t : (t <= n)%N -> smooth_dec t (smo t).
Proof.
move=> Ht; rewrite -(subKn Ht); move: (n - t)%N (leq_subr t n) => k.
elim: k => [|k IH] Hk; first by rewrite subn0; exact: smooth_dec_last.
by apply: smooth_dec_step; rewrite subnSK //; [exact: leq_subr|apply: IH; exact: ltnW].
Qed.

Lemma smo_is_smoothing t : (t <= n)%N -> is_smoothing (lg_of (init_cov_sqrt M)) n t y (smo t).1 (smo t).2.
Proof.
move=> /smooth_dec_all [HP [g [Hg H]]]; split=> //.
by exists (\sum_(0 <= i < n.+1) predictive i), bker, g; split; [exact: bker_proper|split].
Qed.

Lemma smo_pair t : (t < n)%N ->
  let G := back_gain M t (fm t) in
  is_smoothing_pair (lg_of (init_cov_sqrt M)) n t y
    (col_mx (smo t).1 (smo t.+1).1)
    (block_mx (smo t).2 (G *m (smo t.+1).2) ((smo t.+1).2 *m G^T) (smo t.+1).2).
Proof.
move=> Ht G; have [HP [g [Hg H]]] := smooth_dec_all Ht.
have [E _] := smo_step Ht; rewrite E body_filter //.
have [k [Hk [HC [HJ HB]]]] := @back_step t (smo t.+1).1 _ HP.
split=> //; exists (\sum_(0 <= i < n.+1) predictive i), bker, g.
split; first exact: bker_proper.
split=> // x; rewrite H [\sum_(0 <= i < t.+1) _]big_nat_recr //.
have [_] := HB (x t) (x t.+1); rewrite /smarg.
set a := \sum_(0 <= i < n.+1) _; set b := \sum_(0 <= i < t) _; set c := \sum_(t.+1 <= i < n) _.
by clearbody a b c; rewrite /= -/G; toR; lra.
Qed.
End Smoother.
End Run.
