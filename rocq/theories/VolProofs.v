(** Lemmas for C104: calculus of [fderiv], shears. *)
From Coq Require Import Reals Lra.
From mathcomp Require Import ssreflect ssrfun ssrbool eqtype ssrnat seq choice fintype bigop ssralg matrix.
From Verif Require Import RStruct VolSpec.
Set Implicit Arguments.
Unset Strict Implicit.
Import GRing.Theory.
Local Open Scope ring_scope.

Lemma sumR_ge0 n (f : 'I_n -> R) : (forall i, Rle 0 (f i)) -> Rle 0 (\sum_i f i).
Proof.
move=> H; elim/big_rec: _ => [|i x _ Hx]; first exact: Rle_refl.
by have := Rplus_le_le_0_compat _ _ (H i) Hx.
Qed.
Lemma sumR_le n (f g : 'I_n -> R) : (forall i, Rle (f i) (g i)) -> Rle (\sum_i f i) (\sum_i g i).
Proof.
move=> H; elim/big_rec2: _ => [|i x y _ Hx]; first exact: Rle_refl.
by have := Rplus_le_compat _ _ _ _ (H i) Hx.
Qed.
Lemma sumR_abs n (f : 'I_n -> R) : Rle (Rabs (\sum_i f i)) (\sum_i Rabs (f i)).
Proof.
elim/big_rec2: _ => [|i y x _ H]; first by rewrite Rabs_R0; exact: Rle_refl.
by apply: (Rle_trans _ _ _ (Rabs_triang _ _)); exact: Rplus_le_compat_l.
Qed.

Lemma nrm_ge0 n (v : 'cV[R]_n) : Rle 0 (nrm v).
Proof. by apply: sumR_ge0 => i; exact: Rabs_pos. Qed.
Lemma nrm0 n : nrm (0 : 'cV[R]_n) = 0.
Proof. by rewrite /nrm big1 // => i _; rewrite mxE Rabs_R0. Qed.
Lemma nrmD n (u v : 'cV[R]_n) : Rle (nrm (u + v)) (Rplus (nrm u) (nrm v)).
Proof.
rewrite /nrm RplusE -big_split; apply: sumR_le => i; rewrite mxE; exact: Rabs_triang.
Qed.
Lemma nrmN n (u : 'cV[R]_n) : nrm (- u) = nrm u.
Proof. by rewrite /nrm; apply: eq_bigr => i _; rewrite mxE Rabs_Ropp. Qed.
Lemma nrmZ n (a : R) (u : 'cV[R]_n) : nrm (a *: u) = Rmult (Rabs a) (nrm u).
Proof. by rewrite /nrm RmultE big_distrr; apply: eq_bigr => i _; rewrite mxE Rabs_mult. Qed.
Lemma nrm_eq0 n (u : 'cV[R]_n) : Rle (nrm u) 0 -> u = 0.
Proof.
move=> H; apply/colP => i; rewrite mxE.
have H1 : Rle (Rabs (u i ord0)) (nrm u).
  rewrite /nrm (bigD1 i) //=; set r := \sum_(j | _) _.
  suff Hr : Rle 0 r by have := Rplus_le_compat_l (Rabs (u i ord0)) _ _ Hr; rewrite Rplus_0_r.
  by rewrite /r; elim/big_rec: _ => [|j x _ Hx]; [exact: Rle_refl
     | have := Rplus_le_le_0_compat _ _ (Rabs_pos (u j ord0)) Hx].
case: (Req_dec (u i ord0) 0) => // /Rabs_pos_lt; lra.
Qed.

Definition opn m n (A : 'M[R]_(m, n)) : R := \sum_i \sum_j Rabs (A i j).
Lemma opn_ge0 m n (A : 'M[R]_(m, n)) : Rle 0 (opn A).
Proof. by apply: sumR_ge0 => i; apply: sumR_ge0 => j; exact: Rabs_pos. Qed.
Lemma entry_le n (u : 'cV[R]_n) i : Rle (Rabs (u i ord0)) (nrm u).
Proof.
rewrite /nrm (bigD1 i) //=; set r := \sum_(j | _) _.
suff Hr : Rle 0 r by have := Rplus_le_compat_l (Rabs (u i ord0)) _ _ Hr; rewrite Rplus_0_r.
by rewrite /r; elim/big_rec: _ => [|j x _ Hx]; [exact: Rle_refl
     | have := Rplus_le_le_0_compat _ _ (Rabs_pos (u j ord0)) Hx].
Qed.
Lemma nrmM m n (A : 'M[R]_(m, n)) (v : 'cV[R]_n) : Rle (nrm (A *m v)) (Rmult (opn A) (nrm v)).
Proof.
rewrite /nrm /opn RmultE big_distrl; apply: sumR_le => i; rewrite mxE.
apply: (Rle_trans _ _ _ (sumR_abs _)); rewrite big_distrl; apply: sumR_le => j.
rewrite Rabs_mult; apply: Rmult_le_compat_l; [exact: Rabs_pos|exact: entry_le].
Qed.

(** * Calculus *)
Lemma fderiv_ext m n (F G : 'cV[R]_n -> 'cV[R]_m) x J : F =1 G -> fderiv F x J -> fderiv G x J.
Proof. by move=> E H e /H [dl [H1 H2]]; exists dl; split=> // h; rewrite -!E; exact: H2. Qed.

Lemma fderiv_lin m n (A : 'M[R]_(m, n)) x : fderiv (fun z => A *m z) x A.
Proof.
move=> e He; exists 1; split; first exact: Rlt_0_1.
move=> h _; rewrite mulmxDr (addrC (A *m x)) addrK subrr nrm0.
by apply: Rmult_le_pos; [exact: Rlt_le|exact: nrm_ge0].
Qed.

Lemma fderiv_add m n (F G : 'cV[R]_n -> 'cV[R]_m) x A B :
  fderiv F x A -> fderiv G x B -> fderiv (fun z => F z + G z) x (A + B).
Proof.
move=> HF HG e He; have He2 : Rlt 0 (Rdiv e 2) by lra.
have [d1 [P1 Q1]] := HF _ He2; have [d2 [P2 Q2]] := HG _ He2.
exists (Rmin d1 d2); split; first exact: Rmin_pos.
move=> h Hh.
have H1 := Q1 h (Rlt_le_trans _ _ _ Hh (Rmin_l _ _)).
have H2 := Q2 h (Rlt_le_trans _ _ _ Hh (Rmin_r _ _)).
have -> : F (x + h) + G (x + h) - (F x + G x) - (A + B) *m h
  = (F (x + h) - F x - A *m h) + (G (x + h) - G x - B *m h).
  by rewrite mulmxDl !opprD (addrACA (F (x + h))) (addrACA (F (x + h) - F x)).
apply: (Rle_trans _ _ _ (nrmD _ _)).
by have := Rplus_le_compat _ _ _ _ H1 H2; lra.
Qed.

Lemma fderiv_comp m n p (F : 'cV[R]_n -> 'cV[R]_m) (G : 'cV[R]_m -> 'cV[R]_p) x A B :
  fderiv F x A -> fderiv G (F x) B -> fderiv (fun z => G (F z)) x (B *m A).
Proof.
move=> HF HG e He.
set ca := opn A; set cb := opn B.
have Ha : Rle 0 ca by exact: opn_ge0.
have Hb : Rle 0 cb by exact: opn_ge0.
have Da : Rlt 0 (2 * (ca + 1)) by apply: Rmult_lt_0_compat; lra.
have Db : Rlt 0 (2 * (cb + 1)) by apply: Rmult_lt_0_compat; lra.
have E1 : Rlt 0 (Rdiv e (2 * (ca + 1))) by apply: Rdiv_lt_0_compat.
have E2 : Rlt 0 (Rmin 1 (Rdiv e (2 * (cb + 1)))) by apply: Rmin_pos; [exact: Rlt_0_1|apply: Rdiv_lt_0_compat].
have [d1 [P1 Q1]] := HG _ E1; have [d2 [P2 Q2]] := HF _ E2.
exists (Rmin d2 (Rdiv d1 (ca + 1))); split; first by apply: Rmin_pos => //; apply: Rdiv_lt_0_compat => //; lra.
move=> h Hh.
have Hf := Q2 h (Rlt_le_trans _ _ _ Hh (Rmin_l _ _)).
have Hd := Rlt_le_trans _ _ _ Hh (Rmin_r _ _).
set r := F (x + h) - F x - A *m h in Hf.
set k := F (x + h) - F x.
have Ek : k = A *m h + r by rewrite /r -/k addrCA subrr addr0.
have Nk : Rle (nrm k) (Rmult (ca + 1) (nrm h)).
  rewrite Ek; apply: (Rle_trans _ _ _ (nrmD _ _)).
  have := nrmM A h; rewrite -/ca; have := Rmin_l 1 (Rdiv e (2 * (cb + 1))).
  have := nrm_ge0 h; move: Hf; set q := Rmin _ _; move: (nrm r) (nrm h) (nrm (A *m h)) => a b c H1 H2 H3 H4.
  have : Rle (Rmult q b) (Rmult 1 b) by apply: Rmult_le_compat_r.
  by move: H1 H2 H3 H4; clear; toR => *; lra.
have Hk : Rlt (nrm k) d1.
  apply: (Rle_lt_trans _ _ _ Nk).
  have Hc : Rlt 0 (ca + 1) by toR; lra.
  have := Rmult_lt_compat_l _ _ _ Hc Hd.
  by have -> : Rmult (ca + 1) (Rdiv d1 (ca + 1)) = d1 by field; toR; lra.
have Hg := Q1 k Hk.
have -> : G (F (x + h)) - G (F x) - (B *m A) *m h = (G (F x + k) - G (F x) - B *m k) + B *m r.
  have -> : F x + k = F (x + h) by rewrite /k addrCA subrr addr0.
  by rewrite Ek mulmxDr mulmxA opprD -!addrA addNr addr0.
apply: (Rle_trans _ _ _ (nrmD _ _)).
have Hr := nrmM B r; rewrite -/cb in Hr.
have L1 : Rle (Rmult (Rdiv e (2 * (ca + 1))) (nrm k)) (Rmult (Rdiv e 2) (nrm h)).
  apply: (Rle_trans _ _ _ (Rmult_le_compat_l _ _ _ (Rlt_le _ _ E1) Nk)).
  by apply: Req_le; field; toR; lra.
have L2 : Rle (Rmult cb (nrm r)) (Rmult (Rdiv e 2) (nrm h)).
  apply: (Rle_trans _ _ _ (Rmult_le_compat_l _ _ _ Hb Hf)).
  rewrite -Rmult_assoc; apply: Rmult_le_compat_r; first exact: nrm_ge0.
  apply: (Rle_trans _ _ _ (Rmult_le_compat_l _ _ _ Hb (Rmin_r _ _))).
  have -> : Rdiv e 2 = Rmult (cb + 1) (Rdiv e (2 * (cb + 1))) by field; toR; lra.
  apply: Rmult_le_compat_r; first by apply: Rlt_le; apply: Rdiv_lt_0_compat.
  by toR; lra.
by lra.
Qed.

Lemma fderiv_unique m n (F : 'cV[R]_n -> 'cV[R]_m) x A B : fderiv F x A -> fderiv F x B -> A = B.
Proof.
move=> HA HB; suff H : forall v : 'cV[R]_n, (A - B) *m v = 0.
  apply/eqP; rewrite -subr_eq0; apply/eqP/matrixP => i j.
  have := H (delta_mx j ord0); rewrite -colE => /colP /(_ i).
  by rewrite !mxE.
move=> v; apply: nrm_eq0.
apply: le_epsilon => e He; rewrite Rplus_0_l.
set c := Rplus (nrm v) 1; have Hc : Rlt 0 c by have := nrm_ge0 v; rewrite /c; lra.
have E : Rlt 0 (Rdiv e (Rmult 2 c)) by apply: Rdiv_lt_0_compat => //; apply: Rmult_lt_0_compat => //; lra.
have [d1 [P1 Q1]] := HA _ E; have [d2 [P2 Q2]] := HB _ E.
set dl := Rmin d1 d2; have Hdl : Rlt 0 dl by exact: Rmin_pos.
set t := Rdiv dl (Rmult 2 c); have Ht : Rlt 0 t by apply: Rdiv_lt_0_compat => //; apply: Rmult_lt_0_compat => //; lra.
have Nt : nrm (t *: v) = Rmult t (nrm v) by rewrite nrmZ Rabs_right //; lra.
have Hh : Rlt (nrm (t *: v)) dl.
  rewrite Nt; apply: (Rle_lt_trans _ (Rmult t c)); first by apply: Rmult_le_compat_l; rewrite /c; lra.
  have -> : Rmult t c = Rdiv dl 2 by rewrite /t; field; lra.
  lra.
have H1 := Q1 _ (Rlt_le_trans _ _ _ Hh (Rmin_l _ _)).
have H2 := Q2 _ (Rlt_le_trans _ _ _ Hh (Rmin_r _ _)).
have S : (A - B) *m (t *: v) = (F (x + t *: v) - F x - B *m (t *: v)) - (F (x + t *: v) - F x - A *m (t *: v)).
  by rewrite mulmxBl opprB [RHS]addrC addrA subrK.
have H3 : Rle (nrm ((A - B) *m (t *: v))) (Rmult (Rmult 2 (Rdiv e (Rmult 2 c))) (nrm (t *: v))).
  by rewrite S; apply: (Rle_trans _ _ _ (nrmD _ _)); rewrite nrmN; lra.
rewrite Nt -scalemxAr nrmZ (Rabs_right t) in H3; last lra.
have H4 : Rle (nrm ((A - B) *m v)) (Rmult (Rmult 2 (Rdiv e (Rmult 2 c))) (nrm v)).
  apply: (Rmult_le_reg_l t) => //.
  by apply: (Rle_trans _ _ _ H3); apply: Req_le; ring.
apply: (Rle_trans _ _ _ H4).
apply: (Rle_trans _ (Rmult (Rmult 2 (Rdiv e (Rmult 2 c))) c)).
  by apply: Rmult_le_compat_l; [lra|rewrite /c; lra].
by apply: Req_le; field; lra.
Qed.

(** * Shears *)
Section Shear.
Variable d : nat.
Implicit Types (z : 'cV[R]_(d + d)).

Definition kick (c : R) (g : 'cV[R]_d -> 'cV[R]_d) z : 'cV[R]_(d + d) :=
  col_mx (usubmx z) (dsubmx z + c *: g (usubmx z)).
Definition drift (M : 'M[R]_d) z : 'cV[R]_(d + d) := col_mx (usubmx z + M *m dsubmx z) (dsubmx z).
Definition mflip z : 'cV[R]_(d + d) := col_mx (usubmx z) (- dsubmx z).

Lemma usub_lin z : usubmx z = row_mx 1%:M 0 *m z.
Proof. by rewrite -[in RHS](vsubmxK z) mul_row_col mul1mx mul0mx addr0. Qed.
Lemma dsub_lin z : dsubmx z = row_mx 0 1%:M *m z.
Proof. by rewrite -[in RHS](vsubmxK z) mul_row_col mul1mx mul0mx add0r. Qed.

Lemma fderiv_kick c g z H : fderiv g (usubmx z) H ->
  fderiv (kick c g) z (block_mx 1%:M 0 (c *: H) 1%:M).
Proof.
move=> Hg.
have H1 := fderiv_lin (1%:M : 'M[R]_(d + d)) z.
have Hu := fderiv_lin (row_mx 1%:M 0 : 'M[R]_(d, d + d)) z.
rewrite usub_lin in Hg.
have H2 := fderiv_comp Hu Hg.
have H3 := fderiv_comp H2 (fderiv_lin (col_mx 0 c%:M : 'M[R]_(d + d, d)) _).
have H4 := fderiv_add H1 H3.
have -> : block_mx 1%:M 0 (c *: H) 1%:M
  = 1%:M + col_mx 0 c%:M *m (H *m row_mx 1%:M 0) :> 'M[R]_(d + d).
  rewrite mul_mx_row mulmx1 mulmx0 mul_col_row !mul0mx !mulmx0 mul_scalar_mx.
  by rewrite (scalar_mx_block d d 1) add_block_mx !addr0 add0r.
apply: fderiv_ext H4 => y; rewrite mul1mx -usub_lin mul_col_mx mul0mx mul_scalar_mx /kick.
by rewrite -[in LHS](vsubmxK y) add_col_mx addr0 col_mxKu.
Qed.

Lemma fderiv_drift M z : fderiv (drift M) z (block_mx 1%:M M 0 1%:M).
Proof.
apply: fderiv_ext (fderiv_lin (block_mx 1%:M M 0 1%:M) z) => y.
by rewrite -[in LHS](vsubmxK y) mul_block_col !mul1mx mul0mx add0r.
Qed.

Lemma fderiv_mflip z : fderiv mflip z (block_mx 1%:M 0 0 (- 1%:M)).
Proof.
apply: fderiv_ext (fderiv_lin (block_mx 1%:M 0 0 (- 1%:M)) z) => y.
by rewrite -[in LHS](vsubmxK y) mul_block_col !mul1mx !mul0mx add0r addr0 mulNmx mul1mx.
Qed.

(** [L] leapfrog steps *)
Definition lstep (eps : R) (M : 'M[R]_d) (g : 'cV[R]_d -> 'cV[R]_d) z :=
  kick (Ropp (Rdiv eps 2)) g (drift (eps *: M) (kick (Ropp (Rdiv eps 2)) g z)).

Lemma lstep_vol eps M g L z : (forall x, exists H, fderiv g x H) ->
  exists J, fderiv (iter L (lstep eps M g)) z J /\ \det J = 1.
Proof.
move=> Hg; elim: L => [|L [J [HJ DJ]]].
  exists 1%:M; split; last by rewrite det1.
  by apply: fderiv_ext (fderiv_lin 1%:M z) => y; rewrite mul1mx.
set c := Ropp (Rdiv eps 2).
have [H1 D1] := Hg (usubmx (iter L (lstep eps M g) z)).
have F1 := fderiv_kick c D1.
have F2 := fderiv_comp F1 (fderiv_drift (eps *: M) _).
have [H2 D2] := Hg (usubmx (drift (eps *: M) (kick c g (iter L (lstep eps M g) z)))).
have F3 := fderiv_comp F2 (fderiv_kick c D2).
have F4 := fderiv_comp HJ F3.
eexists; split; first exact: F4.
by rewrite !det_mulmx DJ !det_lblock det_ublock !det1 !mulr1.
Qed.

Lemma det_mflip : Rabs (\det (block_mx 1%:M 0 0 (- 1%:M) : 'M[R]_(d + d))) = 1.
Proof.
rewrite det_ublock det1 mul1r -scaleN1r detZ det1 mulr1.
elim: d => [|n IH]; first by rewrite expr0 Rabs_R1.
by rewrite exprS Rabs_mult IH Rabs_Ropp Rabs_R1 Rmult_1_r.
Qed.

Lemma flip_vol eps M g L : (forall x, exists H, fderiv g x H) ->
  preserves_volume (fun z => mflip (iter L (lstep eps M g) z)).
Proof.
move=> Hg z; have [J [HJ DJ]] := @lstep_vol eps M g L z Hg.
have F := fderiv_comp HJ (fderiv_mflip _).
split; first by exists (block_mx 1%:M 0 0 (- 1%:M) *m J).
by move=> J' HJ'; rewrite (fderiv_unique HJ' F) det_mulmx DJ mulr1 det_mflip.
Qed.
End Shear.
